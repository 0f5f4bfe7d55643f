(** C24, C27, C61, C62, C63, C64: types of ONNX values, names of resources, attributes, tensors and opsets. *)
From Coq Require Import ZArith Bool Lia Ascii String List.
From Verif Require Import Prelude DtypeModel TypesModel OnnxModel OnnxSpec OnnxProps OnnxTypesModel OnnxTypesSpec.
Import ListNotations.
Open Scope string_scope.
Open Scope list_scope.
Open Scope Z_scope.

(** * Dictionaries *)
Lemma last_named_iff {A} (l : list (string * A)) k v : lookup (dict l) k = Some v <-> last_named l k v.
Proof.
  rewrite dict_lookup. split.
  - induction l as [|[x w] l IH] using rev_ind; [discriminate|]. rewrite rev_app_distr. cbn [rev app lookup]. destruct (String.eqb_spec x k) as [->|N].
    + intros [= ->]. exists l, []. split; [reflexivity|auto].
    + intros H. destruct (IH H) as (a & b & -> & U). exists a, (b ++ [(x, w)]). rewrite <- app_assoc. split; [reflexivity|].
      rewrite map_app, in_app_iff. cbn. intros [I|[I|[]]]; auto.
  - intros (a & b & -> & U). rewrite rev_app_distr. cbn [rev]. rewrite <- app_assoc, lookup_app.
    assert (E : lookup (rev b) k = None) by (apply lookup_none; rewrite map_rev, <- in_rev; exact U). rewrite E. cbn. rewrite String.eqb_refl. reflexivity.
Qed.
Lemma unnamed_iff {A} (l : list (string * A)) k : lookup (dict l) k = None <-> unnamed l k.
Proof. rewrite dict_lookup. unfold unnamed. rewrite lookup_none, map_rev, <- in_rev. reflexivity. Qed.

(** * C24 *)
(** C24: the type of a name is that of its value_info, else of the output, else of the declared input, else of the
    initializer of that name; among several declarations of a kind, of the last one. *)
Theorem C24_precedence g name t : find_type_proto_for_name g name = Some t <-> typed g name t.
Proof.
  unfold find_type_proto_for_name. split.
  - destruct (lookup (dict (value_info g)) name) eqn:A; [intros [= ->]; constructor; apply last_named_iff; exact A|]. apply unnamed_iff in A.
    destruct (lookup (dict (outputs g)) name) eqn:B; [intros [= ->]; apply ty_output; [exact A|apply last_named_iff; exact B]|]. apply unnamed_iff in B.
    destruct (lookup (dict (declared_inputs g)) name) eqn:C; [intros [= ->]; apply ty_input; [exact A|exact B|apply last_named_iff; exact C]|]. apply unnamed_iff in C.
    destruct (lookup (dict (initializers g)) name) eqn:D; [|discriminate]. intros [= <-]. apply ty_init; auto. apply last_named_iff. exact D.
  - intros [u L|u A L|u A B L|u A B C L]; apply last_named_iff in L; repeat match goal with H : unnamed _ _ |- _ => apply unnamed_iff in H; rewrite H end; rewrite L; reflexivity.
Qed.
(** C24: a name declared nowhere has no type, and a value of that name gets the type of none; it is not an error. *)
Theorem C24_untyped_is_none g name :
  (find_type_proto_for_name g name = None <->
   unnamed (value_info g) name /\ unnamed (outputs g) name /\ unnamed (declared_inputs g) name /\ unnamed (initializers g) name) /\
  (find_type_proto_for_name g name = None -> output_type g name = Some (Atom NoneA)).
Proof.
  split; [|intros H; unfold output_type; rewrite H; reflexivity]. unfold find_type_proto_for_name. rewrite <- !unnamed_iff.
  destruct (lookup (dict (value_info g)) name), (lookup (dict (outputs g)) name), (lookup (dict (declared_inputs g)) name), (lookup (dict (initializers g)) name); intuition discriminate.
Qed.
(** C24: the type passed on for an input is that type; omitted and untyped inputs have an unset one. *)
Theorem C24_input_types g name t : input_type_proto g name = t <->
  (name = "" /\ t = PUnset) \/ (name <> "" /\ (typed g name t \/ ((forall u, ~ typed g name u) /\ t = PUnset))).
Proof.
  unfold input_type_proto. destruct (String.eqb_spec name "") as [E|E]; [intuition|].
  destruct (find_type_proto_for_name g name) as [u|] eqn:F.
  - apply C24_precedence in F as T. split; [intros <-; right; auto|]. intros [[X _]|[_ [Y|[Y _]]]]; [contradiction| |exfalso; exact (Y u T)]. apply C24_precedence in Y. congruence.
  - assert (N : forall u, ~ typed g name u) by (intros u Y; apply C24_precedence in Y; congruence).
    split; [intros <-; right; auto|]. intros [[X _]|[_ [Y|[_ ->]]]]; [contradiction|exfalso; exact (N t Y)|reflexivity].
Qed.
(** C24: after a constant has been imported, later nodes see its type unless the graph declares another. *)
Theorem C24_constants_are_typed g name t : unnamed (value_info g) name -> unnamed (outputs g) name -> unnamed (declared_inputs g) name ->
  find_type_proto_for_name (add_constant g name t) name = Some (PTensor (data_type_of t) (Some (map DimValue (dims t)))) /\
  forall other, other <> name -> find_type_proto_for_name (add_constant g name t) other = find_type_proto_for_name g other.
Proof.
  intros A B C. split.
  - apply C24_precedence. apply ty_init; auto. exists (initializers g), []. split; [reflexivity|auto].
  - intros other N. unfold find_type_proto_for_name, add_constant. cbn [value_info outputs declared_inputs initializers].
    rewrite (dict_lookup (initializers g ++ _)), rev_app_distr. cbn [rev app lookup]. destruct (String.eqb_spec name other); [congruence|]. rewrite (dict_lookup (initializers g)). reflexivity.
Qed.
Definition sample_info : graph_info :=
  {| value_info := [("x", PTensor D_INT64 None)]; outputs := [("y", PTensor D_FLOAT (Some [DimValue 2; DimParam "n"])); ("x", PUnset)]; declared_inputs := []; initializers := [] |}.
Example C24_nonvacuous : typed sample_info "x" (PTensor D_INT64 None) /\ typed sample_info "y" (PTensor D_FLOAT (Some [DimValue 2; DimParam "n"])) /\
  output_type sample_info "y" = Some (Tens {| value_semantics := true; sizes := Some [2; -1]; elt := Some (Builtin (FloatT F32)); sparsity := None |}) /\
  output_type sample_info "z" = Some (Atom NoneA).
Proof. repeat split; apply C24_precedence; reflexivity. Qed.

(** * C61 *)
Lemma element_iff e d : tensor_element_type e = Some d <-> element e d.
Proof.
  split.
  - destruct e; intros [= <-]; (split; [discriminate|split; [reflexivity|discriminate]]).
  - intros (N & K & F). destruct e; cbn [onnx_kind] in *; try congruence; clear N F; destruct d as [[w []|f|[]| | | | | | | |]| |]; cbn [kind_of] in K; try congruence;
      try reflexivity; try (destruct (w =? 1) eqn:W; [apply Z.eqb_eq in W as ->|]; first [reflexivity|congruence]); try (injection K; intros; subst; reflexivity).
Qed.
(** C61: an element type is imported exactly as the torch type with the same kind, width, sign and format. *)
Theorem C61_element_types e d : tensor_element_type e = Some d <-> element e d.
Proof. apply element_iff. Qed.
Lemma element_valid e d : tensor_element_type e = Some d -> isValidTorchDtype d = true.
Proof. destruct e; intros [= <-]; reflexivity. Qed.
Definition asm_size (d : option Z) : Z := match d with None => unknown_size | Some z => z end.
Lemma parse_more l rest : parse_sizes false (flat_map (fun d => [Comma; match d with None => Question | Some z => Int_ z end]) l ++ RSquare :: rest) = (map asm_size l, RSquare :: rest).
Proof. induction l as [|[z|] l IH]; [reflexivity| |]; cbn [flat_map app parse_sizes map asm_size]; rewrite IH; reflexivity. Qed.
Lemma shape_asm_cons d l : shape_asm (d :: l) = match d with None => Question | Some z => Int_ z end :: flat_map (fun d => [Comma; match d with None => Question | Some z => Int_ z end]) l.
Proof. revert d. induction l as [|x l IH]; intros d; [reflexivity|]. cbn [shape_asm flat_map app]. f_equal. f_equal. rewrite <- IH. reflexivity. Qed.
Lemma parse_shape l rest : parse_sizes true (shape_asm l ++ RSquare :: rest) = (map asm_size l, RSquare :: rest).
Proof.
  destruct l as [|d l]; [reflexivity|]. rewrite shape_asm_cons. destruct d as [z|]; cbn [app parse_sizes map asm_size]; rewrite parse_more; reflexivity.
Qed.
Definition vt (l : list (option Z)) (e : dtype) : ty := Tens {| value_semantics := true; sizes := Some (map asm_size l); elt := Some e; sparsity := None |}.
Definition sizes_fine (l : list (option Z)) : bool := forallb (fun d => match d with None => true | Some z => -1 <=? z end) l.
Lemma parse_vtensor fuel l e rest : isValidTorchDtype e = true ->
  parse (fun _ _ _ => false) (S fuel) (vtensor_asm l e ++ rest) = if sizes_fine l then Some (vt l e, rest) else None.
Proof.
  intros V. cbn [vtensor_asm app parse]. rewrite <- !app_assoc. cbn [app]. cbn [String.eqb Ascii.eqb Bool.eqb]. unfold parseTensorType. cbn [expect is_lsquare obind].
  rewrite parse_shape. cbn [expect is_rsquare is_comma is_greater obind]. unfold verifyTensorType. rewrite V.
  assert (E : forallb (fun x => negb ((x <? 0) && negb (x =? unknown_size))) (map asm_size l) = sizes_fine l).
  { unfold sizes_fine. induction l as [|[z|] l IH]; [reflexivity| |]; cbn [forallb map asm_size]; rewrite IH; f_equal. unfold unknown_size.
    destruct (Z.ltb_spec z 0), (Z.eqb_spec z (-1)), (Z.leb_spec (-1) z); try reflexivity; lia. }
  rewrite E. destruct (sizes_fine l); reflexivity.
Qed.
Lemma parse_type_vtensor l e : isValidTorchDtype e = true -> get_vtensor_type l e = if sizes_fine l then Some (vt l e) else None.
Proof.
  intros V. unfold get_vtensor_type, parse_type. rewrite <- (app_nil_r (vtensor_asm l e)) at 2. rewrite parse_vtensor by exact V. destruct (sizes_fine l); reflexivity.
Qed.
Lemma parse_wrapped w (f : ty -> ty) fuel a rest : (w = "list" /\ f = List_ \/ w = "optional" /\ f = Optional) ->
  parse (fun _ _ _ => false) (S fuel) ([Word w; Less] ++ a ++ Greater :: rest) =
  do (t, r) <- parse (fun _ _ _ => false) fuel (a ++ Greater :: rest); do r <- expect is_greater r; Some (f t, r).
Proof.
  intros [[-> ->]|[-> ->]]; cbn [app parse]; cbn [String.eqb Ascii.eqb Bool.eqb]; cbn [expect is_less obind]; destruct (parse _ fuel _) as [[t r]|]; cbn [obind]; try reflexivity; destruct (expect is_greater r); reflexivity.
Qed.
Lemma get_wrapped w (f : ty -> ty) l e : isValidTorchDtype e = true -> (w = "list" /\ f = List_ \/ w = "optional" /\ f = Optional) ->
  parse_type ([Word w; Less] ++ vtensor_asm l e ++ [Greater]) = if sizes_fine l then Some (f (vt l e)) else None.
Proof.
  intros V W. unfold parse_type. rewrite (parse_wrapped w f _ _ [] W). rewrite app_length. cbn [length Nat.add]. rewrite parse_vtensor by exact V. destruct (sizes_fine l); reflexivity.
Qed.
Lemma get_optional_list l e : isValidTorchDtype e = true ->
  get_optional_type ([Word "list"; Less] ++ vtensor_asm l e ++ [Greater]) = if sizes_fine l then Some (Optional (List_ (vt l e))) else None.
Proof.
  intros V. unfold get_optional_type, parse_type. rewrite (parse_wrapped "optional" Optional _ _ [] (or_intror (conj eq_refl eq_refl))). rewrite app_length. cbn [length Nat.add].
  rewrite <- !app_assoc. rewrite (parse_wrapped "list" List_ _ _ [Greater] (or_introl (conj eq_refl eq_refl))). rewrite parse_vtensor by exact V. destruct (sizes_fine l); reflexivity.
Qed.
Lemma dims_sizes ds : map asm_size (dims_of (Some ds)) = map size_of ds.
Proof. unfold dims_of. rewrite map_map. apply map_ext. intros []; reflexivity. Qed.
Lemma dims_fine ds : sizes_fine (dims_of (Some ds)) = true <-> Forall (fun x => -1 <= size_of x) ds.
Proof.
  unfold sizes_fine, dims_of. rewrite forallb_forall, Forall_forall. split; intros H x I.
  - pose proof (H _ (in_map (fun d => match d with DimValue z => Some z | _ => None end) _ _ I)) as K. destruct x; cbn [size_of] in *; unfold unknown_size; try lia.
  - apply in_map_iff in I as (d & <- & I). specialize (H d I). destruct d; cbn [size_of] in H; try reflexivity. apply Z.leb_le. exact H.
Qed.
Lemma tensor_type_iff e ds t (get : list (option Z) -> dtype -> option ty) (f : ty -> ty) :
  (forall l d, isValidTorchDtype d = true -> get l d = if sizes_fine l then Some (f (vt l d)) else None) ->
  (if defined e then do el <- tensor_element_type e; get (dims_of (Some ds)) el else None) = Some t <-> exists u, tensor_of e (Some ds) u /\ t = f u.
Proof.
  intros G. split.
  - destruct (defined e); [|discriminate]. destruct (tensor_element_type e) as [d|] eqn:E; cbn [obind]; [|discriminate]. rewrite G by (eapply element_valid; exact E).
    destruct (sizes_fine _) eqn:S1; [|discriminate]. intros [= <-]. eexists. split; [|reflexivity]. unfold vt. rewrite dims_sizes. constructor; [apply element_iff; exact E|apply dims_fine; exact S1].
  - intros (u & H & ->). inversion H as [ds' d E F|]; subst. apply element_iff in E. assert (X : defined e = true) by (destruct e; [discriminate E|..]; reflexivity). rewrite X, E. cbn [obind].
    rewrite G by (eapply element_valid; exact E). apply dims_fine in F. rewrite F. unfold vt. rewrite dims_sizes. reflexivity.
Qed.
(** C61: types that give a shape to every tensor are imported exactly as the torch types with the same meaning. *)
Theorem C61_types_partial p t : ranked p -> (type_proto_to_type (Some p) = Some t <-> torch_type p t).
Proof.
  intros R. destruct p as [|e s|p|p|].
  - split; [intros [= <-]; constructor|intros H; inversion H; reflexivity].
  - destruct s as [ds|]; [|contradiction R; reflexivity]. cbn [type_proto_to_type]. rewrite (tensor_type_iff e ds t get_vtensor_type (fun x => x)) by (intros; apply parse_type_vtensor; assumption).
    split; [intros (u & H & ->); constructor; exact H|intros H; inversion H; eauto].
  - destruct p as [|e s|p|p|]; try (split; [discriminate|intros H; inversion H]). destruct s as [ds|]; [|contradiction R; reflexivity].
    pose proof (tensor_type_iff e ds t (fun l d => get_list_type (vtensor_asm l d)) List_ (fun l d V => get_wrapped "list" List_ l d V (or_introl (conj eq_refl eq_refl)))) as Q.
    cbn [type_proto_to_type get_list_element_type]. destruct (defined e); cbn [guard obind] in *.
    + transitivity (exists u, tensor_of e (Some ds) u /\ t = List_ u); [|split; [intros (u & H & ->); constructor; exact H|intros H; inversion H; eauto]].
      rewrite <- Q. destruct (tensor_element_type e); reflexivity.
    + rewrite Q. split; [intros (u & H & ->); constructor; exact H|intros H; inversion H; eauto].
  - destruct p as [|e s|p|p|]; try (split; [discriminate|intros H; inversion H]).
    + destruct s as [ds|]; [|contradiction R; reflexivity].
      pose proof (tensor_type_iff e ds t (fun l d => get_optional_type (vtensor_asm l d)) Optional (fun l d V => get_wrapped "optional" Optional l d V (or_intror (conj eq_refl eq_refl)))) as Q.
      cbn [type_proto_to_type get_optional_element_type get_list_element_type]. destruct (defined e); cbn [guard obind] in *.
      * transitivity (exists u, tensor_of e (Some ds) u /\ t = Optional u); [|split; [intros (u & H & ->); constructor; exact H|intros H; inversion H; eauto]].
        rewrite <- Q. destruct (tensor_element_type e); reflexivity.
      * rewrite Q. split; [intros (u & H & ->); constructor; exact H|intros H; inversion H; eauto].
    + destruct p as [|e s|p|p|]; try (split; [discriminate|intros H; inversion H]). destruct s as [ds|]; [|contradiction R; reflexivity].
      pose proof (tensor_type_iff e ds t (fun l d => get_optional_type ([Word "list"; Less] ++ vtensor_asm l d ++ [Greater])) (fun u => Optional (List_ u)) get_optional_list) as Q.
      cbn [type_proto_to_type get_optional_element_type get_list_element_type]. destruct (defined e); cbn [guard obind] in *.
      * transitivity (exists u, tensor_of e (Some ds) u /\ t = Optional (List_ u)); [|split; [intros (u & H & ->); constructor; exact H|intros H; inversion H; eauto]].
        rewrite <- Q. destruct (tensor_element_type e); reflexivity.
      * rewrite Q. split; [intros (u & H & ->); constructor; exact H|intros H; inversion H; eauto].
  - split; [discriminate|intros H; inversion H].
Qed.
(** C61: a tensor type without a shape is imported as the type of a scalar. *)
Theorem C61_unranked_read_as_scalar_refuted e d : element e d ->
  torch_type (PTensor e None) (Tens {| value_semantics := true; sizes := None; elt := Some d; sparsity := None |}) /\
  type_proto_to_type (Some (PTensor e None)) = Some (Tens {| value_semantics := true; sizes := Some []; elt := Some d; sparsity := None |}).
Proof.
  intros E. split; [constructor; constructor; exact E|]. apply element_iff in E. assert (X : defined e = true) by (destruct e; [discriminate E|..]; reflexivity).
  cbn [type_proto_to_type]. rewrite X, E. cbn [obind]. rewrite parse_type_vtensor by (eapply element_valid; exact E). reflexivity.
Qed.
(** C61: tensors and the types declared for them agree: the type of a literal is the type read for its name. *)
Theorem C61_literal_types t : type_proto_to_type (Some (make_tensor_type_proto (data_type_of t) (dims t))) = tensor_proto_to_type t.
Proof.
  unfold tensor_proto_to_type, make_tensor_type_proto, type_proto_to_type, dims_of. rewrite map_map. destruct (data_type_of t); reflexivity.
Qed.
Example C61_nonvacuous : torch_type (POptional (PSequence (PTensor D_INT8 (Some [DimValue 3; DimUnset]))))
  (Optional (List_ (Tens {| value_semantics := true; sizes := Some [3; -1]; elt := Some (Builtin (IntT 8 Signed)); sparsity := None |}))) /\
  ranked (POptional (PSequence (PTensor D_INT8 (Some [DimValue 3; DimUnset])))).
Proof. split; [|discriminate]. constructor. apply (to_ranked D_INT8 [DimValue 3; DimUnset]); [repeat split; discriminate|repeat constructor; cbn; unfold unknown_size; lia]. Qed.

(** * C27 *)
Lemma between_iff a b c : between a b c = true <-> (a <= nat_of_ascii c <= b)%nat.
Proof. unfold between. rewrite andb_true_iff, !Nat.leb_le. reflexivity. Qed.
Lemma letter_iff c : is_letter c = true <-> letter c.
Proof. unfold is_letter, letter. rewrite orb_true_iff, !between_iff. reflexivity. Qed.
Lemma word_iff c : word_char c = true <-> letter c \/ digit c \/ c = "_"%char.
Proof. unfold word_char, is_underscore, is_digit, digit. rewrite !orb_true_iff, letter_iff, between_iff, Ascii.eqb_eq. tauto. Qed.
Lemma all_chars_iff f s : all_chars f s = true <-> forall c, In c (chars s) -> f c = true.
Proof. induction s as [|c s IH]; cbn; [split; [intros _ ? []|auto]|]. rewrite andb_true_iff, IH. split; [intros [A B] x [<-|I]; auto|intros H; auto]. Qed.
Lemma dot_not_word : word_char "." = false. Proof. reflexivity. Qed.
Lemma identifier_iff s : isidentifier s = true <-> plain s.
Proof.
  unfold isidentifier, plain, legal. destruct s as [|c s]; [split; [discriminate|intros [(c & r & [=] & _) _]]|]. rewrite andb_true_iff, orb_true_iff, letter_iff, all_chars_iff. unfold is_underscore. rewrite Ascii.eqb_eq. split.
  - intros [A B]. split; [exists c, s; split; [reflexivity|split; [exact A|]]; intros x I; apply B, word_iff in I; tauto|].
    cbn [chars In]. intros [E|I]; [|apply B in I; discriminate]. subst. destruct A as [A|A]; [destruct A as [A|A]; vm_compute in A; lia|discriminate].
  - intros [(c' & r & [= <- <-] & A & B) D]. split; [exact A|]. intros x I. apply word_iff. destruct (B x I) as [X|[X|[X|X]]]; auto. subst. exfalso. apply D. right. exact I.
Qed.
Lemma map_chars_id f s : (forall c, In c (chars s) -> f c = c) -> map_chars f s = s.
Proof. induction s as [|c s IH]; intros H; cbn; [reflexivity|]. rewrite H by (left; reflexivity). rewrite IH; [reflexivity|intros; apply H; right; assumption]. Qed.
Lemma chars_map f s : chars (map_chars f s) = map f (chars s).
Proof. induction s as [|c s IH]; cbn; [reflexivity|]. rewrite IH. reflexivity. Qed.
Definition clean (c : ascii) : ascii := if word_char c || Ascii.eqb c "." then c else "_"%char.
Lemma clean_fine c : letter (clean c) \/ digit (clean c) \/ clean c = "_"%char \/ clean c = "."%char.
Proof.
  unfold clean. destruct (word_char c) eqn:W; cbn [orb]; [apply word_iff in W; tauto|]. destruct (Ascii.eqb_spec c "."); tauto.
Qed.
Lemma clean_same c : letter c \/ digit c \/ c = "_"%char \/ c = "."%char -> clean c = c.
Proof. unfold clean. intros [H|[H|[H|H]]]; try (assert (W : word_char c = true) by (apply word_iff; tauto); rewrite W; reflexivity). subst. reflexivity. Qed.
Lemma legal_all s : legal s -> forall c, In c (chars s) -> letter c \/ digit c \/ c = "_"%char \/ c = "."%char.
Proof. intros (c & r & -> & A & B) x [<-|I]; [tauto|auto]. Qed.
Lemma sanitize_eq s : sanitize_name s = if isidentifier s then s else String "_" (map_chars clean s).
Proof.
  unfold sanitize_name. destruct (isidentifier s) eqn:I; [|reflexivity]. apply identifier_iff in I as [L _]. apply map_chars_id. intros c C. apply clean_same. apply (legal_all s L c C).
Qed.
(** C27: the name given to a resource is a legal identifier, for every name. *)
Theorem C27_legal s : legal (sanitize_name s).
Proof.
  rewrite sanitize_eq. destruct (isidentifier s) eqn:I; [apply identifier_iff in I; apply I|]. eexists _, _. split; [reflexivity|]. split; [right; reflexivity|].
  intros x X. rewrite chars_map in X. apply in_map_iff in X as (c & <- & _). apply clean_fine.
Qed.
(** C27: plain identifiers are kept; other names get an underscore in front and lose characters one by one. *)
Theorem C27_spelling s : (plain s -> sanitize_name s = s) /\
  (~ plain s -> exists r, sanitize_name s = String "_" r /\
     Forall2 (fun c x => (letter c \/ digit c \/ c = "_"%char \/ c = "."%char) /\ x = c \/ ~ (letter c \/ digit c \/ c = "_"%char \/ c = "."%char) /\ x = "_"%char) (chars s) (chars r)).
Proof.
  rewrite sanitize_eq. pose proof (identifier_iff s) as I. destruct (isidentifier s).
  - split; [reflexivity|]. intros N. exfalso. apply N, I. reflexivity.
  - split; [intros P; apply I in P; discriminate|]. intros _. exists (map_chars clean s). split; [reflexivity|]. rewrite chars_map. induction (chars s) as [|c l IH]; constructor; [|exact IH].
    unfold clean. destruct (word_char c) eqn:W; cbn [orb]; [left; apply word_iff in W; tauto|]. destruct (Ascii.eqb_spec c "."); [left; tauto|]. right. split; [|reflexivity].
    intros [X|[X|[X|X]]]; try congruence; assert (word_char c = true) by (apply word_iff; tauto); congruence.
Qed.
(** C27: distinct legal names stay distinct. *)
Theorem C27_injective_on_legal s t : legal s -> legal t -> sanitize_name s = sanitize_name t -> s = t.
Proof.
  intros L M. rewrite !sanitize_eq. assert (K : forall u, legal u -> map_chars clean u = u) by (intros u U; apply map_chars_id; intros c C; apply clean_same; apply (legal_all u U c C)).
  rewrite (K s L), (K t M). pose proof (identifier_iff s) as I. pose proof (identifier_iff t) as J.
  assert (D : forall u, legal u -> ~ plain u -> In "."%char (chars u)). { intros u U N. destruct (in_dec Ascii.ascii_dec "."%char (chars u)) as [Y|Y]; [exact Y|]. exfalso. apply N. split; assumption. }
  assert (T : forall a b, plain a -> legal b -> ~ plain b -> a = String "_" b -> False).
  { intros a b [_ A] B N ->. apply A. right. apply D; assumption. }
  destruct (isidentifier s), (isidentifier t); intros E; try congruence.
  - exfalso. apply (T s t); auto; [apply I; reflexivity|intros P; apply J in P; discriminate].
  - exfalso. apply (T t s); auto; [apply J; reflexivity|intros P; apply I in P; discriminate].
Qed.
(** C27: other names can become the same, also with a legal one. *)
Theorem C27_collisions_refuted : sanitize_name "a-b" = sanitize_name "a/b" /\ sanitize_name "1" = sanitize_name "_1" /\ sanitize_name "" = sanitize_name "_".
Proof. repeat split. Qed.
Example C27_nonvacuous : sanitize_name "conv1.weight/0" = "_conv1.weight_0" /\ plain "conv1_weight" /\ legal "conv1.weight".
Proof.
  assert (L : legal "conv1.weight") by (exists "c"%char, "onv1.weight"; split; [reflexivity|]; split; [left; unfold letter; vm_compute; lia|]; cbn; intros x H; unfold letter, digit;
    repeat (destruct H as [<-|H]; [vm_compute nat_of_ascii; first [right; right; right; reflexivity|left; lia|right; left; lia]|]); contradiction).
  split; [reflexivity|]. split; [apply identifier_iff; reflexivity|exact L].
Qed.

(** * C63 *)
Definition inline_kinds : list data_type := [D_FLOAT; D_BOOL; D_UINT8; D_INT8; D_INT16; D_INT32; D_INT64; D_DOUBLE; D_UINT32; D_UINT64].
Lemma inline_spec t : inline_field t = None /\ ~ In (data_type_of t) inline_kinds \/
  exists f np k, In (data_type_of t) inline_kinds /\ onnx_field (data_type_of t) = Some f /\ inline_field t = Some (entries t f, np) /\ onnx_kind (data_type_of t) = Some k /\
    tensor_element_type (data_type_of t) = Some (np_element np) /\ forall z v, np_value np z = Some v <-> stored k z v.
Proof.
  assert (R : forall lo hi z v, (assert (lo <=? z) && (z <? hi); Some z) = Some v <-> v = z /\ lo <= v < hi).
  { intros. unfold guard. destruct (Z.leb_spec lo z), (Z.ltb_spec z hi); cbn; (split; [intros [= <-]; lia|intros [-> ?]; try lia; reflexivity]). }
  assert (S1 : forall z v : Z, Some z = Some v <-> v = z) by (intros; split; congruence).
  unfold inline_field. destruct (data_type_of t);
    try (left; split; [reflexivity|cbn; intuition discriminate]);
    right; (eexists _, _, _; split; [cbn; tauto|]; split; [reflexivity|]; split; [reflexivity|]; split; [reflexivity|]; split; [reflexivity|]; intros z v; cbn [np_value np_range stored]; first [apply R|apply S1]).
Qed.
(** C63: typed data of a supported type is imported exactly when there is one entry per element, each in the range of
    the type; the values are the entries, as ONNX reads them. *)
Theorem C63_inline_tensors_partial t a : raw_data t = None ->
  (tensor_proto_to_attr t = Some a <->
   exists f k d vs, In (data_type_of t) inline_kinds /\ onnx_field (data_type_of t) = Some f /\ onnx_kind (data_type_of t) = Some k /\ element (data_type_of t) d /\
     Forall (Z.le 0) (dims t) /\ Forall2 (stored k) (entries t f) vs /\ zlen (entries t f) = prodZ (dims t) /\ a = Dense vs (dims t) d).
Proof.
  intros R. unfold tensor_proto_to_attr, tensor_proto_to_builtin_type. rewrite R.
  destruct (inline_spec t) as [[N F]|(f & np & k & I & F & IF & K & E & V)].
  - rewrite N. split; [|intros (f & k & d & vs & X & _); contradiction]. destruct (tensor_element_type (data_type_of t)); cbn [obind]; [|discriminate]. destruct (guard _); discriminate.
  - rewrite E, IF. cbn [obind]. assert (ST : (match np_element np with StringD => false | _ => true end) = true) by (destruct np; reflexivity). rewrite ST. cbn [andb].
    assert (P : forallb (Z.leb 0) (dims t) = true <-> Forall (Z.le 0) (dims t)) by (rewrite forallb_forall, Forall_forall; split; intros H x X; apply Z.leb_le, H, X).
    assert (M : forall l vs, mapM (np_value np) l = Some vs <-> Forall2 (stored k) l vs).
    { clear - V. induction l as [|z l IH]; intros vs; cbn [mapM]; [split; [intros [= <-]; constructor|inversion 1; reflexivity]|]. split.
      - destruct (np_value np z) eqn:X; cbn [obind]; [|discriminate]. destruct (mapM (np_value np) l) eqn:Y; cbn [obind]; [|discriminate]. intros [= <-]. constructor; [apply V; exact X|apply IH; reflexivity].
      - inversion 1 as [|? v ? vs' A B]; subst. apply V in A. apply IH in B. rewrite A, B. reflexivity. }
    unfold guard. split.
    + destruct (forallb (Z.leb 0) (dims t)) eqn:D; cbn [obind]; [|discriminate]. destruct (mapM (np_value np) (entries t f)) as [vs|] eqn:Y; cbn [obind]; [|discriminate].
      destruct (Z.eqb_spec (zlen vs) (prodZ (dims t))) as [L|L]; cbn [obind]; [|discriminate]. intros [= <-]. exists f, k, (np_element np), vs.
      split; [exact I|]. split; [exact F|]. split; [exact K|]. split; [apply element_iff; exact E|]. split; [apply P; reflexivity|]. split; [apply M; exact Y|]. split; [|reflexivity].
      rewrite <- L. unfold zlen. rewrite (mapM_length _ _ _ _ _ Y). reflexivity.
    + intros (f' & k' & d & vs & _ & F' & K' & E' & D & S2 & L & ->). rewrite F in F'. injection F' as <-. rewrite K in K'. injection K' as <-. apply element_iff in E'. rewrite E in E'. injection E' as <-.
      apply P in D. rewrite D. cbn [obind]. apply M in S2. rewrite S2. cbn [obind]. unfold zlen in *. rewrite (mapM_length _ _ _ _ _ S2), L, Z.eqb_refl. reflexivity.
Qed.
(** C63: raw data is taken as it is, whatever its length, for every type but strings. *)
Theorem C63_raw_tensors t bytes a : raw_data t = Some bytes ->
  (tensor_proto_to_attr t = Some a <->
   exists d, element (data_type_of t) d /\ d <> StringD /\ Forall (Z.le 0) (dims t) /\ a = Resource (sanitize_name (tp_name t)) bytes (dims t) d).
Proof.
  intros R. unfold tensor_proto_to_attr, tensor_proto_to_builtin_type. rewrite R.
  assert (P : forallb (Z.leb 0) (dims t) = true <-> Forall (Z.le 0) (dims t)) by (rewrite forallb_forall, Forall_forall; split; intros H x X; apply Z.leb_le, H, X).
  destruct (tensor_element_type (data_type_of t)) as [d|] eqn:E; cbn [obind].
  - split.
    + unfold guard. destruct (forallb (Z.leb 0) (dims t)) eqn:D; [|rewrite andb_false_r; discriminate]. rewrite andb_true_r. destruct d as [m| |]; cbn [obind]; try discriminate; intros [= <-]; eexists;
        (split; [apply element_iff; exact E|]; split; [discriminate|]; split; [apply P; reflexivity|reflexivity]).
    + intros (d' & E' & N & D & ->). apply element_iff in E'. rewrite E in E'. injection E' as <-. apply P in D. rewrite D, andb_true_r. destruct d; cbn [guard obind]; try reflexivity. congruence.
  - split; [discriminate|]. intros (d & E' & _). apply element_iff in E'. congruence.
Qed.
(** C63: a literal and its result have the same shape and element type. *)
Theorem C63_literal_agrees_with_type t a : tensor_proto_to_attr t = Some a ->
  exists d, element (data_type_of t) d /\ elements_type a = (dims t, d) /\
  tensor_proto_to_type t = Some (Tens {| value_semantics := true; sizes := Some (dims t); elt := Some d; sparsity := None |}).
Proof.
  intros H. assert (X : exists d, element (data_type_of t) d /\ elements_type a = (dims t, d) /\ Forall (Z.le 0) (dims t)).
  { destruct (raw_data t) as [b|] eqn:R.
    - destruct (proj1 (C63_raw_tensors t b a R) H) as (d & E & _ & D & A). rewrite A. exists d. auto.
    - destruct (proj1 (C63_inline_tensors_partial t a R) H) as (f & k & d & vs & _ & _ & _ & E & D & _ & _ & A). rewrite A. exists d. auto. }
  destruct X as (d & E & Y & D). exists d. split; [exact E|]. split; [exact Y|]. unfold tensor_proto_to_type. apply element_iff in E. rewrite E. cbn [obind].
  rewrite parse_type_vtensor by (eapply element_valid; exact E). assert (F : sizes_fine (map Some (dims t)) = true).
  { unfold sizes_fine. rewrite forallb_forall. intros x I. apply in_map_iff in I as (z & <- & I). rewrite Forall_forall in D. apply Z.leb_le. specialize (D z I). lia. }
  rewrite F. unfold vt. rewrite map_map. cbn [asm_size]. rewrite map_id. reflexivity.
Qed.
(** C63: typed data is refused for types ONNX allows it for. *)
Theorem C63_typed_data_refused_refuted t : raw_data t = None -> In (data_type_of t) [D_UINT16; D_FLOAT16; D_BFLOAT16; D_FLOAT8E4M3FN; D_FLOAT8E4M3FNUZ; D_FLOAT8E5M2; D_FLOAT8E5M2FNUZ] ->
  onnx_field (data_type_of t) = Some FInt32 /\ tensor_proto_to_attr t = None.
Proof.
  intros R I. unfold tensor_proto_to_attr, tensor_proto_to_builtin_type, inline_field. rewrite R.
  cbn in I. repeat (destruct I as [<-|I]; [split; [reflexivity|]; cbn; destruct (guard _); reflexivity|]). contradiction.
Qed.
Definition small_tensor (e : data_type) (ds data : list Z) : tensor_proto :=
  {| tp_name := "w/0"; data_type_of := e; dims := ds; raw_data := None; float_data := []; int32_data := data; int64_data := []; double_data := []; uint64_data := [] |}.
Example C63_nonvacuous : tensor_proto_to_attr (small_tensor D_INT8 [2; 2] [1; -2; 3; 127]) = Some (Dense [1; -2; 3; 127] [2; 2] (Builtin (IntT 8 Signed))) /\
  tensor_proto_to_attr (small_tensor D_INT8 [2; 2] [1; -2; 3; 128]) = None /\ tensor_proto_to_attr (small_tensor D_BOOL [2] [0; 7]) = Some (Dense [0; 1] [2] (Builtin (IntT 1 Signless))).
Proof. repeat split. Qed.

(** * C62 *)
Definition onnx_key (n : string) : string := append "torch.onnx." n.
Lemma onnx_key_inj a b : onnx_key a = onnx_key b -> a = b.
Proof. unfold onnx_key. cbn. congruence. Qed.
Lemma handler_spec a : (a_type a = T_GRAPH /\ ATTRIBUTE_TYPE_HANDLERS (a_type a) = Some HSkip) \/
  (a_type a <> T_GRAPH /\ exists f, ATTRIBUTE_TYPE_HANDLERS (a_type a) = Some (HConvert f) /\ forall v, f a = Some v <-> attr_value a v) \/
  (a_type a <> T_GRAPH /\ (ATTRIBUTE_TYPE_HANDLERS (a_type a) = Some HError \/ ATTRIBUTE_TYPE_HANDLERS (a_type a) = None) /\ forall v, ~ attr_value a v).
Proof.
  assert (S1 : forall x v : mlir_attr, Some x = Some v <-> v = x) by (intros; split; congruence).
  assert (T : forall l r, mapM tensor_proto_to_attr l = Some r <-> Forall2 (fun t e => tensor_proto_to_attr t = Some e) l r).
  { induction l as [|x l IH]; intros r; cbn [mapM]; [split; [intros [= <-]; constructor|inversion 1; reflexivity]|]. split.
    - destruct (tensor_proto_to_attr x) eqn:X; cbn [obind]; [|discriminate]. destruct (mapM _ l) eqn:Y; cbn [obind]; [|discriminate]. intros [= <-]. constructor; [exact X|apply IH; reflexivity].
    - inversion 1 as [|? v ? vs A B]; subst. rewrite A. apply IH in B. rewrite B. reflexivity. }
  destruct (a_type a) eqn:E; cbn [ATTRIBUTE_TYPE_HANDLERS];
    try (left; split; reflexivity);
    try (right; right; split; [discriminate|split; [auto|intros v []; congruence]]);
    right; left; (split; [discriminate|]; eexists; split; [reflexivity|]; intros v; cbv beta).
  1-3,5-7: rewrite S1; split; [intros ->; constructor; exact E|intros []; congruence].
  - split; [destruct (tensor_proto_to_attr (a_t a)) eqn:X; cbn [obind]; intros [= <-]; apply av_tensor; assumption|intros []; try congruence]. match goal with H : tensor_proto_to_attr _ = _ |- _ => rewrite H end. reflexivity.
  - split; [destruct (mapM tensor_proto_to_attr (a_tensors a)) eqn:X; cbn [obind]; intros [= <-]; apply av_tensors; [exact E|apply T; exact X]|intros []; try congruence].
    match goal with H : Forall2 _ _ _ |- _ => apply T in H; rewrite H end. reflexivity.
Qed.
Lemma attr_value_unique a v w : attr_value a v -> attr_value a w -> v = w.
Proof.
  destruct (handler_spec a) as [[G _]|[(_ & f & _ & H)|(_ & _ & H)]]; intros A B; [destruct A; congruence| |exfalso; exact (H v A)]. apply H in A, B. congruence.
Qed.
(** The last attribute of a name, if it is not a graph. *)
Lemma loop_spec l : forall attrs,
  ((exists r, import_attributes_loop l attrs = Some r) <-> Forall (fun a => a_type a = T_GRAPH \/ exists v, attr_value a v) l) /\
  forall r, import_attributes_loop l attrs = Some r ->
    exists kept, map fst kept = map a_name (filter (fun a => match a_type a with T_GRAPH => false | _ => true end) l) /\
      Forall2 (fun a p => attr_value a (snd p)) (filter (fun a => match a_type a with T_GRAPH => false | _ => true end) l) kept /\
      r = fold_left (fun d p => dict_set d (onnx_key (fst p)) (snd p)) kept attrs.
Proof.
  induction l as [|a l IH]; intros attrs; cbn [import_attributes_loop].
  - split; [split; [constructor|eauto]|]. intros r [= <-]. exists []. repeat split. constructor.
  - destruct (handler_spec a) as [[G H]|[(G & f & H & V)|(G & H & V)]].
    + rewrite H. cbn [obind filter]. rewrite G. destruct (IH attrs) as [S1 S2]. split; [|exact S2]. rewrite S1. split; [intros F; constructor; auto|intros F; inversion F; assumption].
    + rewrite H. cbn [obind]. destruct (f a) as [v|] eqn:E; cbn [obind].
      * destruct (IH (dict_set attrs (onnx_key (a_name a)) v)) as [S1 S2]. change (append "torch.onnx." (a_name a)) with (onnx_key (a_name a)). clear E. assert (E : attr_value a v) by (apply V; reflexivity). split.
        -- rewrite S1. split; [intros F; constructor; eauto|intros F; inversion F; assumption].
        -- intros r R. destruct (S2 r R) as (kept & K1 & K2 & K3). exists ((a_name a, v) :: kept). cbn [filter].
           replace (match a_type a with T_GRAPH => false | _ => true end) with true by (destruct (a_type a); congruence).
           split; [cbn [map fst]; rewrite K1; reflexivity|]. split; [constructor; [exact E|exact K2]|exact K3].
      * split; [|discriminate]. split; [intros [r [=]]|]. intros F. exfalso. inversion F as [|? ? [X|[v X]] _]; subst; [contradiction|]. apply V in X. congruence.
    + assert (N : (do h <- ATTRIBUTE_TYPE_HANDLERS (a_type a); match h with HSkip => import_attributes_loop l attrs | HError => None | HConvert f => do v <- f a; import_attributes_loop l (dict_set attrs (append "torch.onnx." (a_name a)) v) end) = None)
        by (destruct H as [-> | ->]; reflexivity).
      rewrite N. split; [|discriminate]. split; [intros [r [=]]|]. intros F. exfalso. inversion F as [|? ? [X|[v X]] _]; subst; [contradiction|exact (V v X)].
Qed.
(** C62: a node's attributes are imported exactly when each is a graph or of a supported type. *)
Theorem C62_when_imported op l : (exists r, operator_attributes op l = Some r) <-> Forall (fun a => a_type a = T_GRAPH \/ exists v, attr_value a v) l.
Proof.
  unfold operator_attributes. rewrite <- (proj1 (loop_spec l [])). split.
  - intros [r H]. destruct (import_attributes_loop l []); [eauto|discriminate].
  - intros [r ->]. cbn. eauto.
Qed.
Lemma fold_keys (kept : list (string * mlir_attr)) : forall attrs k, lookup (fold_left (fun d p => dict_set d (onnx_key (fst p)) (snd p)) kept attrs) k =
  match lookup (rev (map (fun p => (onnx_key (fst p), snd p)) kept)) k with Some v => Some v | None => lookup attrs k end.
Proof.
  induction kept as [|p kept IH]; intros attrs k; [reflexivity|]. cbn [fold_left map rev]. rewrite IH, lookup_app. destruct (lookup (rev _) k); [reflexivity|]. rewrite dict_set_lookup. cbn [lookup]. destruct (String.eqb _ k); reflexivity.
Qed.
Lemma app_inj_both {A} (a b c d : list A) : length a = length c -> a ++ b = c ++ d -> a = c /\ b = d.
Proof. revert c. induction a as [|x a IH]; intros [|y c] L H; try discriminate; [auto|]. injection H as -> H. destruct (IH c) as [-> ->]; auto. Qed.
(** C62: the attributes of the operation: [name] is the operator; every attribute that is not a graph is kept under its
    name, the last one if several share it; there are no others. *)
Theorem C62_attributes op l r : operator_attributes op l = Some r ->
  lookup r "name" = Some (StringAttr (append "onnx." op)) /\
  (forall a before after, l = before ++ a :: after -> a_type a <> T_GRAPH -> (forall b, In b after -> a_type b <> T_GRAPH -> a_name b <> a_name a) ->
     exists v, attr_value a v /\ lookup r (append "torch.onnx." (a_name a)) = Some v) /\
  (forall k, lookup r k <> None -> k = "name" \/ exists a, In a l /\ a_type a <> T_GRAPH /\ k = append "torch.onnx." (a_name a)).
Proof.
  unfold operator_attributes. destruct (import_attributes_loop l []) as [d|] eqn:E; cbn [obind]; [|discriminate]. intros [= <-]. destruct (proj2 (loop_spec l []) d E) as (kept & K1 & K2 & ->).
  split; [rewrite dict_set_lookup; reflexivity|]. split.
  - intros a before after -> G U. rewrite filter_app in K1, K2. cbn [filter] in K1, K2. replace (match a_type a with T_GRAPH => false | _ => true end) with true in K1, K2 by (destruct (a_type a); congruence).
    apply Forall2_app_inv_l in K2 as (kb & ka & KB & KA & ->). inversion KA as [|? p ? ka' AV KA' X1 X2]; subst. exists (snd p). split; [exact AV|]. rewrite dict_set_lookup.
    change (append "torch.onnx." (a_name a)) with (onnx_key (a_name a)). replace ("name" =? onnx_key (a_name a))%string with false by reflexivity. rewrite fold_keys.
    rewrite map_app. cbn [map]. rewrite rev_app_distr. cbn [rev]. rewrite <- app_assoc, lookup_app.
    rewrite !map_app in K1. cbn [map] in K1. assert (LB : length (map fst kb) = length (map a_name (filter (fun a => match a_type a with T_GRAPH => false | _ => true end) before))) by (rewrite !map_length; symmetry; apply (Forall2_len _ _ _ _ _ KB)).
    apply (app_inj_both _ _ _ _ LB) in K1. destruct K1 as [_ K1]. injection K1 as P1 P2.
    assert (N : lookup (rev (map (fun p => (onnx_key (fst p), snd p)) ka')) (onnx_key (a_name a)) = None).
    { apply lookup_none. rewrite map_rev, <- in_rev, map_map. intros I. apply in_map_iff in I as (q & Q & I). cbn [fst] in Q. apply onnx_key_inj in Q.
      assert (I2 : In (a_name a) (map fst ka')) by (rewrite <- Q; apply in_map; exact I). rewrite P2 in I2. apply in_map_iff in I2 as (b & Q2 & I2). apply filter_In in I2 as [I2 G2]. apply (U b I2); [destruct (a_type b); congruence|exact Q2]. }
    rewrite N, P1. cbn [app lookup]. rewrite String.eqb_refl. reflexivity.
  - intros k. rewrite dict_set_lookup. destruct (String.eqb_spec "name" k); [auto|]. rewrite fold_keys. cbn [lookup]. intros H. right.
    assert (I : In k (map fst (rev (map (fun p => (onnx_key (fst p), snd p)) kept)))) by (apply lookup_key; destruct (lookup (rev _) k); congruence).
    rewrite map_rev, <- in_rev, map_map in I. apply in_map_iff in I as (p & <- & I). assert (I2 : In (fst p) (map fst kept)) by (apply in_map; exact I). rewrite K1 in I2.
    apply in_map_iff in I2 as (a & Q & I2). apply filter_In in I2 as [I2 G]. exists a. split; [exact I2|]. split; [destruct (a_type a); congruence|]. cbn [fst]. rewrite <- Q. reflexivity.
Qed.
(** C62: graphs become regions, one each. *)
Theorem C62_regions l r : count_regions (l ++ r) = (count_regions l + count_regions r)%nat /\ (count_regions l = O <-> forall a, In a l -> a_type a <> T_GRAPH) /\
  forall a, count_regions [a] = if match a_type a with T_GRAPH => true | _ => false end then 1%nat else O.
Proof.
  split; [unfold count_regions; rewrite filter_app, app_length; reflexivity|]. split.
  - unfold count_regions. induction l as [|a l IH]; cbn [filter]; [split; [intros _ ? []|reflexivity]|]. split.
    + destruct (a_type a) eqn:G; try discriminate; intros H b [E|I]; try (rewrite <- E, G; discriminate); apply IH; auto.
    + intros H. pose proof (H a (or_introl eq_refl)) as G. destruct (a_type a); try congruence; apply IH; intros; apply H; right; assumption.
  - intros a. unfold count_regions. cbn [filter]. destruct (a_type a); reflexivity.
Qed.

Definition sample_attr (n : string) (t : attr_type) : attribute :=
  {| a_name := n; a_type := t; a_f := 0; a_i := 3; a_s := ""; a_t := small_tensor D_INT8 [1] [7]; a_floats := []; a_ints := [1; 1]; a_strings := []; a_tensors := [] |}.
Example C62_nonvacuous : operator_attributes "Conv" [sample_attr "group" T_INT; sample_attr "body" T_GRAPH; sample_attr "pads" T_INTS; sample_attr "group" T_TENSOR] =
    Some [("torch.onnx.group", Elements (Dense [7] [1] (Builtin (IntT 8 Signed)))); ("torch.onnx.pads", ArrayAttr [IntegerAttr 1; IntegerAttr 1]); ("name", StringAttr "onnx.Conv")] /\
  operator_attributes "Conv" [sample_attr "group" T_GRAPHS] = None.
Proof. repeat split. Qed.

(** * C64 *)
Lemma opset_loop_spec l : forall d vs, opset_loop l d vs =
  (match lookup (rev l) "" with Some v => v | None => d end, fold_left (fun m p => dict_set m (fst p) (snd p)) (filter (fun p => negb (String.eqb (fst p) "")) l) vs).
Proof.
  induction l as [|[k v] l IH]; intros d vs; [reflexivity|]. cbn [opset_loop rev filter fst]. rewrite lookup_app. destruct (String.eqb_spec k "") as [->|N]; cbn [negb fold_left fst snd]; rewrite IH.
  - f_equal. cbn [lookup]. rewrite String.eqb_refl. destruct (lookup (rev l) ""); reflexivity.
  - f_equal. cbn [lookup]. destruct (String.eqb_spec k ""); [contradiction|]. destruct (lookup (rev l) ""); reflexivity.
Qed.
(** C64: the version recorded for a domain is that of its last import (none if that is zero, for the default domain). *)
Theorem C64_recorded_versions l d : recorded (opset_attributes l) d =
  match lookup (rev l) d with Some v => if String.eqb d "" && (v =? 0) then None else Some v | None => None end.
Proof.
  unfold opset_attributes. rewrite opset_loop_spec. cbn [recorded fst snd]. unfold recorded. destruct (String.eqb_spec d "") as [->|N]; cbn [andb fst snd].
  - destruct (lookup (rev l) "") as [v|]; [destruct (v =? 0); reflexivity|reflexivity].
  - assert (E : lookup (dict (filter (fun p : string * Z => negb (String.eqb (fst p) "")) l)) d = lookup (rev l) d).
    { rewrite dict_lookup. induction l as [|[k v] l IH] using rev_ind; [reflexivity|]. rewrite filter_app. cbn [filter fst]. rewrite (rev_app_distr l). cbn [rev app lookup].
      destruct (String.eqb_spec k "") as [->|M]; cbn [negb].
      - rewrite app_nil_r, IH. destruct (String.eqb_spec "" d); [congruence|reflexivity].
      - rewrite rev_app_distr. cbn [rev app lookup]. rewrite IH. reflexivity. }
    change (fold_left _ _ []) with (dict (filter (fun p : string * Z => negb (String.eqb (fst p) "")) l)). rewrite <- E. destruct (dict _) as [|p m]; [reflexivity|]. destruct (lookup (p :: m) d); reflexivity.
Qed.
(** C64: if every domain is imported once, with a positive version, the version recorded for a domain is the one used for
    its nodes. *)
Theorem C64_nodes_use_recorded_version_partial l d : NoDup (map fst l) -> Forall (fun p => 0 < snd p) l -> recorded (opset_attributes l) d = node_opset l d.
Proof.
  intros ND P. rewrite C64_recorded_versions. unfold node_opset. rewrite <- dict_lookup, (dict_NoDup l ND). destruct (lookup l d) as [v|] eqn:E; [|reflexivity].
  apply lookup_In in E. rewrite Forall_forall in P. specialize (P _ E). cbn in P. destruct (Z.eqb_spec v 0); [lia|]. rewrite andb_false_r. reflexivity.
Qed.
(** C64: with two imports of one domain they differ; and a node that names the default domain in full is not found. *)
Theorem C64_two_imports_refuted d v w : v <> w -> 0 < v -> 0 < w -> recorded (opset_attributes [(d, v); (d, w)]) d = Some w /\ node_opset [(d, v); (d, w)] d = Some v.
Proof.
  intros N V W. rewrite C64_recorded_versions. unfold node_opset. cbn [rev app lookup]. rewrite String.eqb_refl. split; [|reflexivity]. destruct (Z.eqb_spec w 0); [lia|]. rewrite andb_false_r. reflexivity.
Qed.
Theorem C64_full_default_domain_refuted v : same_domain "ai.onnx" "" /\ node_opset [("", v)] "ai.onnx" = None.
Proof. split; [right; cbn; auto|reflexivity]. Qed.
Example C64_nonvacuous : opset_attributes [("com.microsoft", 1); ("", 17); ("ai.onnx.ml", 3)] = (Some 17, Some [("com.microsoft", 1); ("ai.onnx.ml", 3)]).
Proof. reflexivity. Qed.

Print Assumptions C24_precedence.
Print Assumptions C61_types_partial.
Print Assumptions C27_injective_on_legal.
Print Assumptions C63_inline_tensors_partial.
Print Assumptions C62_attributes.
Print Assumptions C64_recorded_versions.
