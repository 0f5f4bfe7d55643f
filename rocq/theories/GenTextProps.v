(** C114: the generated texts are read back as what was meant. *)
From Coq Require Import Ascii String Bool Arith Lia List.
From Verif Require Import GenTextModel GenTextSpec GenTextProofs.
Import ListNotations.
Open Scope list_scope.
Open Scope nat_scope.

(** The C++ literal stands for the library exactly when the library has no backslash. *)
Theorem C114_library_literal asm : ~ In "\"%char asm <-> cxx_literals (library_literal asm) = Some asm.
Proof. symmetry. apply literal_iff. Qed.
(** MLIR prints a quotation mark within a string as a backslash and 22, which C++ reads as one control character. *)
Theorem C114_library_with_a_backslash_refuted : exists asm d,
  asm = txt "torch.constant.str ""\22""" /\ cxx_literals (library_literal asm) = Some d /\ d <> asm.
Proof. eexists. eexists. split; [reflexivity|]. split; [vm_compute; reflexivity|discriminate]. Qed.

(** A quoted string is read by TableGen as the string exactly when every quotation mark in it, and nothing else, follows a backslash. *)
Theorem C114_quote s : quotable s <-> td_string (quote s) = Some (s, []).
Proof. symmetry. apply quote_iff. Qed.
Theorem C114_quote_within_a_text s rest : quotable s -> td_string (quote s ++ rest) = Some (s, rest).
Proof.
  intros Q. rewrite quote_is. cbn [app]. rewrite <- app_assoc. cbn [app].
  change (td_string (quotation :: ?x)) with (td_chars false x). now apply quotable_read.
Qed.
(** A quotation mark alone ends the string. *)
Theorem C114_quotation_mark_refuted : td_string (quote (txt "a""b")) = Some (txt "a\", txt "b""").
Proof. reflexivity. Qed.

(** Printing keeps the lines, each behind two blanks for each level; what has no indentation and ends its lines is printed as it is. *)
Theorem C114_print_keeps_lines level lines : Forall (fun l => ~ In (ascii_of_nat 10) l) lines ->
  print level (ended lines) = ended (map (fun l => repeat " "%char (2 * level) ++ l) lines).
Proof. intros F. rewrite print_is, splitlines_ended by exact F. reflexivity. Qed.
Theorem C114_print_ends_the_last_line level s c : c <> ascii_of_nat 10 -> print level (s ++ [c]) = print level (s ++ [c; ascii_of_nat 10]).
Proof.
  intros N. rewrite !print_is. f_equal. f_equal.
  change [c; ascii_of_nat 10] with ([c] ++ [newline]). rewrite app_assoc.
  pose proof (ended_splitlines (s ++ [c])) as E. rewrite rev_app_distr in E. cbn [rev app] in E. rewrite (eqb_no c newline N) in E. rewrite <- E.
  symmetry. apply splitlines_ended, splitlines_no_newline.
Qed.
Theorem C114_print_nothing level : print level [] = [].
Proof. reflexivity. Qed.

(** Documentation without the mark that ends a block, or from which removing the marks leaves none, is read as its lines. *)
Theorem C114_documentation_partial pieces lines level rest :
  Forall (fun p => ~ contains (txt "}]") p) pieces -> ~ contains (txt "}]") (concat pieces) ->
  concat pieces = ended (map (fun l => fst l ++ snd l) lines) -> lines <> [] -> doc_lines lines ->
  td_code (quote_multiline_docstring (join (txt "}]") pieces) level ++ rest) =
  Some (in_block (2 * level + 2) lines ++ ascii_of_nat 10 :: repeat " "%char (2 * level), rest).
Proof.
  intros FP CP EQ NE DL.
  assert (FC : Forall (fun p => clean p = true) pieces) by (eapply Forall_impl; [|exact FP]; intros p; apply clean_iff).
  rewrite qmd_clean; rewrite replace_joined by exact FC; [|now apply clean_iff]. rewrite EQ. f_equal. f_equal.
  assert (NL : Forall (fun l => ~ In newline l) (map (fun l : list ascii * list ascii => fst l ++ snd l) lines)).
  { apply Forall_map. eapply Forall_impl; [|exact DL]. intros [w t] (N & B & _) K. cbn [fst snd] in *. apply in_app_or in K as [K|K]; [auto|].
    rewrite Forall_forall in B. destruct (B _ K) as [|]; discriminate. }
  rewrite splitlines_ended by exact NL. rewrite app_comm_cons. f_equal. clear EQ NL.
  induction DL as [|[w t] ls (N & B & W) F IH]; [congruence|]. cbn [fst snd] in *.
  assert (BT : forallb blank t = true).
  { apply forallb_forall. rewrite Forall_forall in B. intros x K. destruct (B x K) as [-> | ->]; reflexivity. }
  assert (BW : w = [] \/ (exists a c, w = a ++ [c] /\ blank c = false)).
  { destruct W as [->|(a & c & -> & NB)]; [now left|right]. exists a, c. split; [reflexivity|]. unfold blank, is_blank in *.
    rewrite !eqb_no; [reflexivity| | |]; intros ->; [|tauto|tauto]. apply N, in_or_app. right. now left. }
  cbn [map in_block flat_map]. cbn [fst snd]. rewrite doc_line_app by assumption. destruct ls as [|h u].
  - cbn [map flat_map join]. rewrite app_nil_r; now destruct w.
  - specialize (IH ltac:(discriminate)). cbn [map in_block] in *.
    change (in_block (2 * level + 2) (h :: u)) with (flat_map (fun l => ascii_of_nat 10 :: match fst l with [] => [] | w => repeat " "%char (2 * level + 2) ++ w end) (h :: u)) in IH.
    rewrite <- IH. destruct w; reflexivity.
Qed.
(** Removing the marks once may leave one, which ends the block too early. *)
Theorem C114_nested_marks_refuted : exists body rest,
  td_code (quote_multiline_docstring (txt "a}}]]b") 0) = Some (body, rest) /\ rest <> [].
Proof. eexists. eexists. split; [vm_compute; reflexivity|discriminate]. Qed.

Example C114_nonvacuous :
  cxx_literals (library_literal (txt "str ""a""" ++ [ascii_of_nat 10] ++ txt "}")) = Some (txt "str ""a""" ++ [ascii_of_nat 10] ++ txt "}")
  /\ ~ In "\"%char (txt "str ""a""" ++ [ascii_of_nat 10] ++ txt "}")
  /\ quotable (txt "aten.add\""Tensor")
  /\ quote (txt "aten.add") = txt """aten.add"""
  /\ print 2 (txt "a," ++ [ascii_of_nat 10] ++ txt "b") = txt "    a," ++ [ascii_of_nat 10] ++ txt "    b" ++ [ascii_of_nat 10]
  /\ td_code (quote_multiline_docstring (txt "x }]y  " ++ [ascii_of_nat 10; ascii_of_nat 10] ++ txt "z") 1) =
     Some ([ascii_of_nat 10] ++ txt "    x y" ++ [ascii_of_nat 10; ascii_of_nat 10] ++ txt "    z" ++ [ascii_of_nat 10] ++ txt "  ", []).
Proof.
  split; [vm_compute; reflexivity|]. split.
  { cbn. intros K. repeat (destruct K as [K|K]; [discriminate|]). exact K. }
  split. { repeat (first [apply quotable_nil | apply quotable_mark | apply quotable_char; [discriminate|discriminate|discriminate|]]). }
  split; [reflexivity|]. split; vm_compute; reflexivity.
Qed.

Print Assumptions C114_library_literal.
Print Assumptions C114_library_with_a_backslash_refuted.
Print Assumptions C114_quote.
Print Assumptions C114_quote_within_a_text.
Print Assumptions C114_quotation_mark_refuted.
Print Assumptions C114_print_keeps_lines.
Print Assumptions C114_print_ends_the_last_line.
Print Assumptions C114_print_nothing.
Print Assumptions C114_documentation_partial.
Print Assumptions C114_nested_marks_refuted.
