(** C115: the records generated for operators declare their schemas, and operations print and parse back. *)
From Coq Require Import Ascii String Bool Arith Lia List.
From Verif Require Import Prelude GenTextModel GenTextSpec GenTextProofs OdsModel OdsSpec OdsProofs.
Import ListNotations.
Open Scope string_scope.
Open Scope list_scope.
Open Scope nat_scope.

(** Every type of a schema gets the constraint composed from its parts, or none if it is not supported. *)
Theorem C115_types t non_value :
  get_ods_type (show t) non_value false = if supported t then Some (ascii_text (constraint non_value t)) else None.
Proof. apply get_ods_type_correct. Qed.
Theorem C115_types_of_results t non_value :
  get_ods_type (show t) non_value true = if supported (as_result t) then Some (ascii_text (constraint non_value (as_result t))) else None.
Proof. rewrite get_ods_type_result. apply get_ods_type_correct. Qed.
Theorem C115_dictionaries s non_value is_result :
  get_ods_type (ascii_text "Dict(" ++ s) non_value is_result = Some (ascii_text "Torch_DictType").
Proof. unfold get_ods_type. destruct is_result, non_value; cbn; reflexivity. Qed.
(** Only tensors differ between operators with and without value semantics. *)
Theorem C115_types_without_tensors t : supported t = true ->
  (constraint true t = constraint false t <-> ~ In t [Base Tensor; Optional (Base Tensor); ListOf (Base Tensor); ListOf (Optional (Base Tensor))]).
Proof.
  intros S. destruct t as [b|[b|t|[b|t|t]]|[b|[b|t|t]|t]]; try discriminate; destruct b; try discriminate; cbn;
    (split; [intros E K; first [discriminate E | repeat (destruct K as [K|K]; [discriminate K|]); exact K] | intros K; try reflexivity; exfalso; apply K; tauto]).
Qed.

(** The record of an operator whose schema has only supported types: [of_schema] is the operator with that schema. *)
Theorem C115_record_partial s name class key traits folder canonicalizer verifier :
  Forall (fun a => supported (fst a) = true /\ unbroken (snd a)) (s_args s) ->
  Forall (fun r => supported (as_result (fst r)) = true /\ (forall n, snd r = Some n -> unbroken n /\ n <> [])) (s_rets s) ->
  plain name -> plain key -> unbroken class -> Forall (fun t => unbroken t /\ t <> []) traits ->
  exists non_value, (non_value = true <-> In inplace traits) /\
  raw_emit_op (of_schema s false false name class key) traits folder canonicalizer verifier =
  Some (ended (record s name class key traits non_value folder canonicalizer verifier)).
Proof.
  intros FA FR PN PK UC FT. set (nv := existsb (text_eqb (txt "IsTrailingUnderscoreInplaceVariant")) traits). exists nv. split; [apply inplace_is|].
  unfold record. apply (emit_lines (of_schema s false false name class key) traits _ _ _ folder canonicalizer verifier nv eq_refl); try assumption.
  - now apply operands_text_is.
  - now apply results_text_is.
  - now apply operand_declarations_fine.
  - now apply result_declarations_fine.
  - now apply hooks_print.
Qed.
(** With any number of operands or of results, which are then declared as such, and a format instead of functions. *)
Theorem C115_variadic_record_partial s vararg varret name class key traits folder canonicalizer verifier :
  vararg || varret = true ->
  Forall (fun a => supported (fst a) = true /\ plain (snd a)) (s_args s) ->
  Forall (fun r => supported (as_result (fst r)) = true /\ (forall n, snd r = Some n -> plain n /\ n <> [])) (s_rets s) ->
  plain name -> plain key -> unbroken class -> Forall (fun t => unbroken t /\ t <> []) traits ->
  exists non_value, (non_value = true <-> In inplace traits) /\
  raw_emit_op (of_schema s vararg varret name class key) traits folder canonicalizer verifier =
  Some (ended (record_lines name class key traits
    (if vararg then [declaration "Variadic<AnyTorchType>" (ascii_text "operands")] else operand_declarations s non_value)
    (if varret then [declaration "Variadic<AnyTorchType>" (ascii_text "results")] else result_declarations s non_value)
    [two ++ ascii_text "let assemblyFormat = """ ++
     variadic_format (if vararg then None else Some (map snd (s_args s))) (if varret then None else Some (names_of_results s)) ++ ascii_text """;"]
    folder canonicalizer verifier)).
Proof.
  intros V FA FR PN PK UC FT. set (nv := existsb (text_eqb (txt "IsTrailingUnderscoreInplaceVariant")) traits). exists nv. split; [apply inplace_is|].
  assert (FA' : args_fine s) by (eapply Forall_impl; [|exact FA]; intros [t n] [S (_ & _ & P)]; now split).
  assert (FR' : rets_fine s) by (eapply Forall_impl; [|exact FR]; intros [t n] [S P]; split; [exact S|]; intros m E; destruct (P m E) as [(_ & _ & P1) P2]; now split).
  assert (ONE : forall d, declaration "Variadic<AnyTorchType>" (ascii_text d) <> []) by discriminate.
  apply (emit_lines (of_schema s vararg varret name class key) traits _ _ _ folder canonicalizer verifier nv eq_refl); try assumption.
  - destruct vararg; [reflexivity|now apply operands_text_is].
  - destruct varret; [reflexivity|now apply results_text_is].
  - destruct vararg; [|now apply operand_declarations_fine]. constructor; [|constructor]. split; [|discriminate]. now apply (no_newline_string "Variadic<AnyTorchType>:$operands").
  - destruct varret; [|now apply result_declarations_fine]. constructor; [|constructor]. split; [|discriminate]. now apply (no_newline_string "Variadic<AnyTorchType>:$results").
  - cbn [is_vararg is_varret of_schema]. rewrite V, assembly_format_is by assumption.
    assert (PF : plain (variadic_format (if vararg then None else Some (map snd (s_args s))) (if varret then None else Some (names_of_results s)))).
    { apply plain_format.
      - destruct vararg; [exact Logic.I|]. apply Forall_map. eapply Forall_impl; [|exact FA]. now intros a [_ P].
      - destruct varret; [exact Logic.I|]. apply names_plain. eapply Forall_impl; [|exact FR]. intros r [_ P] n E. now apply P. }
    rewrite (plain_quote _ PF). destruct PF as (_ & _ & UF). generalize dependent (variadic_format (if vararg then None else Some (map snd (s_args s))) (if varret then None else Some (names_of_results s))). intros fmt UF.
    rewrite print_line; [|repeat (apply unbroken_app); try (apply no_newline_string; reflexivity); try assumption; intros [K|[]]; discriminate|discriminate].
    unfold ended. cbn [flat_map]. rewrite <- !app_assoc. reflexivity.
Qed.
(** A type which is not supported is an error. *)
Theorem C115_unsupported_types s name class key traits folder canonicalizer verifier :
  (exists a, In a (s_args s) /\ supported (fst a) = false) \/ (exists r, In r (s_rets s) /\ supported (as_result (fst r)) = false) ->
  raw_emit_op (of_schema s false false name class key) traits folder canonicalizer verifier = None.
Proof.
  intros H. unfold raw_emit_op. generalize (existsb (text_eqb (txt "IsTrailingUnderscoreInplaceVariant")) traits). intros nv.
  destruct H as [(a & K & S)|(r & K & S)].
  - assert (E : operands_text (of_schema s false false name class key) nv = None); [|now rewrite E].
    unfold operands_text. cbn [is_vararg arguments of_schema]. rewrite mapM_none; [reflexivity|].
    exists (show (fst a), snd a). split; [apply (in_map (fun a => (show (fst a), snd a))); exact K|]. cbn [fst]. now rewrite get_ods_type_correct, S.
  - destruct (operands_text _ nv); [|reflexivity]. cbn [obind].
    assert (E : results_text (of_schema s false false name class key) nv = None); [|now rewrite E].
    unfold results_text. cbn [is_varret returns of_schema]. rewrite enumerate_map. rewrite mapM_none; [reflexivity|].
    destruct (enumerate_has (s_rets s) r K) as (i & I'). exists (i, (show (fst r), match snd r with Some n => n | None => [] end)). split.
    + apply in_map_iff. exists (i, r). split; [reflexivity|exact I'].
    + cbn [fst snd]. now rewrite get_ods_type_result, get_ods_type_correct, S.
Qed.

(** Results have different names if the names given differ and are not of the form of those made up. *)
Theorem C115_result_names_partial s :
  (forall i j r r', nth_error (s_rets s) i = Some r -> nth_error (s_rets s) j = Some r' -> snd r = snd r' -> snd r <> None -> i = j) ->
  (forall r n k, In r (s_rets s) -> snd r = Some n -> n <> ascii_text "result" ++ decimal k /\ n <> ascii_text "result") ->
  NoDup (names_of_results s).
Proof.
  intros DG NG. apply NoDup_nth_error. intros i j L E.
  assert (LN : length (names_of_results s) = length (s_rets s)) by (unfold names_of_results; now rewrite map_length, seq_length).
  assert (NTH : forall k, nth_error (names_of_results s) k = option_map (fun r => name_of_result (1 <? length (s_rets s)) k (snd r)) (nth_error (s_rets s) k)).
  { intros k. rewrite names_of_results_is, nth_error_map. unfold enumerate. rewrite enumerate_nth. now destruct (nth_error (s_rets s) k). }
  rewrite !NTH in E. destruct (nth_error (s_rets s) i) as [[t n]|] eqn:E1; [|apply nth_error_None in E1; lia].
  destruct (nth_error (s_rets s) j) as [[t' n']|] eqn:E2; [|discriminate]. cbn [option_map snd] in E. injection E as E.
  pose proof (nth_error_In _ _ E1) as I1. pose proof (nth_error_In _ _ E2) as I2.
  destruct n as [n|], n' as [n'|]; cbn [name_of_result] in E.
  - apply (DG i j _ _ E1 E2); [cbn; congruence|discriminate].
  - exfalso. destruct (NG _ n j I1 eq_refl) as [A B]. destruct (1 <? length (s_rets s)); contradiction.
  - exfalso. destruct (NG _ n' i I2 eq_refl) as [A B]. destruct (1 <? length (s_rets s)); [now apply A|now apply B].
  - destruct (Nat.ltb_spec 1 (length (s_rets s))).
    + apply app_inv_head in E. now apply str_inj.
    + assert (j < length (s_rets s)) by (apply nth_error_Some; congruence). lia.
Qed.
Theorem C115_result_names_refuted : exists s, ~ NoDup (names_of_results s) /\
  s_rets s = [(Base Tensor, Some (ascii_text "result1")); (Base Tensor, None)].
Proof.
  exists {| s_args := []; s_rets := [(Base Tensor, Some (ascii_text "result1")); (Base Tensor, None)] |}. split; [|reflexivity].
  intros H. vm_compute in H. inversion H as [|x l N _]. apply N. now left.
Qed.

(** ** Operations *)
(** An operation printed by the functions of its record is parsed back, whatever follows it, unless that is a comma. *)
Theorem C115_print_parse {V A T} (op : operation V A T) rest : length (operand_types op) = length (operands op) -> hd_error rest <> Some Comma ->
  parse_op (length (operands op)) (length (result_types op)) (print_op (length (operands op)) (length (result_types op)) op ++ rest) = Some (op, rest).
Proof. apply parse_print. Qed.
(** What is parsed has the right number of operands, and was printed so. *)
Theorem C115_parse_print {V A T} n m (s : list (token V A T)) (op : operation V A T) rest : parse_op n m s = Some (op, rest) ->
  length (operands op) = n /\ length (operand_types op) = n /\ (m = 0 <-> result_types op = []) /\ s = print_op n m op ++ rest.
Proof. apply parse_sound. Qed.
(** The number of results is not checked by the parser, except against none. *)
Theorem C115_number_of_results_refuted {V A T} (t u : T) : exists op : operation V A T,
  parse_op 0 1 [Colon; Type_ t; Comma; Type_ u] = Some (op, []) /\ length (result_types op) = 2.
Proof. eexists. split; reflexivity. Qed.

Definition add_schema : schema :=
  {| s_args := [(Base Tensor, ascii_text "self"); (ListOf (Optional (Base Tensor)), ascii_text "others"); (Optional (Base Int), ascii_text "dim")];
     s_rets := [(Base Tensor, None); (Base Int, Some (ascii_text "count"))] |}.
Example C115_nonvacuous :
  get_ods_type (ascii_text "Tensor?[]") true false = Some (ascii_text "AnyTorchListOfOptionalNonValueTensorType")
  /\ get_ods_type (ascii_text "Tensor") false true = Some (ascii_text "AnyTorchOptionalTensorType")
  /\ get_ods_type (ascii_text "complex") false false = None
  /\ names_of_results add_schema = [ascii_text "result0"; ascii_text "count"]
  /\ result_declarations add_schema true = [ascii_text "AnyTorchOptionalNonValueTensorType:$result0"; ascii_text "Torch_IntType:$count"]
  /\ variadic_format (Some [ascii_text "tup"]) None = ascii_text "$tup attr-dict `:` qualified(type($tup)) `->` qualified(type($results))"
  /\ listing 2 [ascii_text "ReadOnly"; ascii_text "Pure"] = [ascii_text "  ReadOnly,"; ascii_text "  Pure"]
  /\ (exists text, raw_emit_op (of_schema add_schema false false (ascii_text "aten.x") (ascii_text "AtenXOp") (ascii_text "aten::x : (Tensor) -> (Tensor)"))
                     [inplace; ascii_text "ReadOnly"] true false false = Some text)
  /\ parse_op 2 1 [Operand 7; Comma; Operand 8; Attributes true; Colon; Type_ "a"; Comma; Type_ "b"; Arrow; Type_ "c"] =
     Some ({| operands := [7; 8]; attributes := Some true; operand_types := ["a"; "b"]; result_types := ["c"] |}, []).
Proof. repeat (split; [vm_compute; reflexivity|]). split; [eexists; vm_compute; reflexivity|reflexivity]. Qed.

Print Assumptions C115_types.
Print Assumptions C115_types_of_results.
Print Assumptions C115_dictionaries.
Print Assumptions C115_types_without_tensors.
Print Assumptions C115_record_partial.
Print Assumptions C115_variadic_record_partial.
Print Assumptions C115_unsupported_types.
Print Assumptions C115_result_names_partial.
Print Assumptions C115_result_names_refuted.
Print Assumptions C115_print_parse.
Print Assumptions C115_parse_print.
Print Assumptions C115_number_of_results_refuted.
