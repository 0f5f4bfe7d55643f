(** C92: tensor literals have the tensor's type and contents. *)
From Coq Require Import String Ascii ZArith Bool DecimalString DecimalN Lia List.
From Verif Require Import Prelude DtypeModel FxLiteralModel.
Import ListNotations.
Open Scope Z_scope.

(** ** Specification *)
Definition element_of (x : attr) : mlir_type := match x with Dense e _ _ | Resource _ e _ _ => e end.
Definition shape_of (x : attr) : list Z := match x with Dense _ s _ | Resource _ _ s _ => s end.
Definition contents (x : attr) : list Z := match x with Dense _ _ d | Resource _ _ _ d => d end.
Definition in_place (x : attr) : Prop := match x with Dense _ _ _ => True | Resource _ _ _ _ => False end.
(** The attribute [x] is the literal of [t]. *)
Definition represents (x : attr) (t : tensor) : Prop :=
  element_of x = TORCH_DTYPE_TO_MLIR_TYPE_ASM (t_dtype t) /\ shape_of x = t_shape t /\
  contents x = t_data t.
Definition no_numpy : list torch_dtype := [t_qint8; t_quint8; t_complex32; t_float4_e2m1fn_x2].
Definition needs_ml_dtypes : list torch_dtype :=
  [t_bfloat16; t_float8_e5m2; t_float8_e4m3fn; t_float8_e5m2fnuz; t_float8_e4m3fnuz; t_float8_e8m0fnu].

(** C92. The literal of a tensor has the element type and sizes of the tensor's type, and
    its contents. *)
Theorem C92_literal_is_the_tensor : forall ml t x, literal_attr ml t = Some x -> represents x t.
Proof.
  intros ml t x H. unfold literal_attr in H. destruct (has_npy_type ml (t_dtype t)) eqn:E; [|discriminate].
  assert (A : TORCH_DTYPE_TO_MLIR_TYPE (t_dtype t) = TORCH_DTYPE_TO_MLIR_TYPE_ASM (t_dtype t)).
  { destruct (t_dtype t); cbn in E; try discriminate; reflexivity. }
  unfold represents. rewrite <- A. injection H as <-. now destruct (Nat.eqb (length (t_data t)) 1).
Qed.
(** One-element literals are written in place, all others (also empty ones) as resources. *)
Theorem C92_single_elements_in_place : forall ml t x, literal_attr ml t = Some x ->
  (in_place x <-> exists v, t_data t = [v]).
Proof.
  intros ml t x H. unfold literal_attr in H. destruct (has_npy_type ml (t_dtype t)); [|discriminate].
  injection H as <-. destruct (t_data t) as [|v [|w r]]; cbn.
  - split; [contradiction|]. intros [v E]; discriminate.
  - split; [|exact (fun _ => I)]. intros _. now exists v.
  - split; [contradiction|]. intros [u E]; discriminate.
Qed.
(** Which dtypes have literals. *)
Theorem C92_dtypes_with_literals : forall ml t, literal_attr ml t <> None <->
  ~ In (t_dtype t) no_numpy /\ (In (t_dtype t) needs_ml_dtypes -> ml = true).
Proof.
  intros ml [d sh da]. unfold literal_attr. cbn [t_dtype]. split.
  - destruct (has_npy_type ml d) eqn:E; [|congruence]. intros _. split.
    + intros H. cbn in H. repeat destruct H as [<-|H]; try contradiction; discriminate.
    + intros H. cbn in H. repeat destruct H as [<-|H]; try contradiction; exact E.
  - intros [A B]. assert (E : has_npy_type ml d = true).
    { destruct d; try reflexivity; try (apply B; cbn; tauto); exfalso; apply A; cbn; tauto. }
    rewrite E. discriminate.
Qed.

(** ** Blob names *)
Lemma digit_chars : forall u c, In c (list_ascii_of_string (NilEmpty.string_of_uint u)) ->
  c <> "_"%char /\ c <> "t"%char.
Proof.
  induction u; cbn; intros c H; [contradiction|..]; (destruct H as [<-|H]; [split; discriminate|now apply IHu]).
Qed.
Lemma size_chars : forall d c, In c (list_ascii_of_string (size_text d)) -> c <> "_"%char /\ c <> "t"%char.
Proof.
  intros d c. unfold size_text, NilZero.string_of_uint. destruct (N.to_uint (Z.to_N d)) eqn:E;
  try (apply digit_chars). cbn. intros [<-|[]]. split; discriminate.
Qed.
Lemma size_text_inj : forall a b, 0 <= a -> 0 <= b -> size_text a = size_text b -> a = b.
Proof.
  intros a b Ha Hb H. unfold size_text in H. apply (f_equal NilZero.uint_of_string) in H.
  assert (N : forall n, N.to_uint n <> Decimal.Nil).
  { intros [|p]; cbn; [discriminate|]. apply DecimalPos.Unsigned.to_uint_nonnil. }
  rewrite !NilZero.usu in H by apply N. injection H as H. apply Unsigned.to_uint_inj in H.
  rewrite <- (Z2N.id a), <- (Z2N.id b) by assumption. now rewrite H.
Qed.
Lemma size_text_nonempty : forall d, size_text d <> EmptyString.
Proof.
  intros d. unfold size_text, NilZero.string_of_uint.
  destruct (N.to_uint (Z.to_N d)); discriminate.
Qed.
Lemma chars_app : forall a b, list_ascii_of_string (a ++ b) = (list_ascii_of_string a ++ list_ascii_of_string b)%list.
Proof. induction a as [|c a IH]; intros b; cbn; [reflexivity|now rewrite IH]. Qed.
Lemma chars_inj : forall a b, list_ascii_of_string a = list_ascii_of_string b -> a = b.
Proof. intros a b H. rewrite <- (string_of_list_ascii_of_string a), H. apply string_of_list_ascii_of_string. Qed.
Lemma sep_unique : forall (c : ascii) a b x y, ~ In c a -> ~ In c b ->
  (a ++ c :: x = b ++ c :: y -> a = b /\ x = y)%list.
Proof.
  intros c a. induction a as [|u a IH]; intros [|v b] x y A B E; cbn in *; inversion E; subst; try tauto.
  destruct (IH b x y) as [-> ->]; auto.
Qed.
Lemma joined_sizes_inj : forall l m, Forall (fun d => 0 <= d) l -> Forall (fun d => 0 <= d) m ->
  String.concat "_" (map size_text l) = String.concat "_" (map size_text m) -> l = m.
Proof.
  assert (NE : forall d r, String.concat "_" (map size_text (d :: r)) <> EmptyString).
  { intros d r H. apply (size_text_nonempty d). destruct r; cbn [map String.concat] in H; [exact H|].
    now destruct (size_text d). }
  induction l as [|a l IH]; intros [|b m] Hl Hm H.
  - reflexivity.
  - symmetry in H. now apply NE in H.
  - now apply NE in H.
  - inversion Hl as [|? ? A Hl']; inversion Hm as [|? ? B Hm']; subst.
    assert (NU : forall d, ~ In "_"%char (list_ascii_of_string (size_text d))).
    { intros d Hd. apply size_chars in Hd. now destruct Hd. }
    destruct l as [|a' l], m as [|b' m]; cbn [map String.concat] in H.
    + apply size_text_inj in H; congruence.
    + exfalso. apply (NU a). rewrite H, chars_app. apply in_or_app. right. cbn. now left.
    + exfalso. apply (NU b). rewrite <- H, chars_app. apply in_or_app. right. cbn. now left.
    + apply (f_equal list_ascii_of_string) in H. rewrite !chars_app in H. cbn [list_ascii_of_string app] in H.
      apply sep_unique in H; [|apply NU|apply NU]. destruct H as [H1 H2]. apply chars_inj in H1.
      apply size_text_inj in H1; auto. subst b. apply chars_inj in H2. f_equal. now apply IH.
Qed.
Lemma joined_no_t : forall l, ~ In "t"%char (list_ascii_of_string (String.concat "_" (map size_text l) ++ "_")).
Proof.
  intros l. rewrite chars_app. intros H. apply in_app_or in H. destruct H as [H|[H|[]]]; [|discriminate].
  induction l as [|a l IH]; cbn [map String.concat] in H; [contradiction|].
  destruct l as [|b l]; cbn [map String.concat] in *.
  - apply size_chars in H. now destruct H.
  - rewrite chars_app in H. apply in_app_or in H. destruct H as [H|H]; [apply size_chars in H; now destruct H|].
    cbn [list_ascii_of_string append] in H. destruct H as [H|H]; [discriminate|]. now apply IH.
Qed.
Definition dtype_rest (d : torch_dtype) : string := substring 1 64 (dtype_name d).
Lemma dtype_split : forall d, dtype_name d = String "t" (dtype_rest d).
Proof. now intros []. Qed.
Lemma dtype_rest_inj : forall d e, dtype_rest d = dtype_rest e -> d = e.
Proof. intros [] [] H; try reflexivity; vm_compute in H; discriminate. Qed.

(** C92. Literals of different sizes or dtypes ask for different blob names. *)
Theorem C92_blob_names_are_injective : forall t u,
  Forall (fun d => 0 <= d) (t_shape t) -> Forall (fun d => 0 <= d) (t_shape u) ->
  (blob_name t = blob_name u <-> t_shape t = t_shape u /\ t_dtype t = t_dtype u).
Proof.
  intros t u Ht Hu. split; [|intros [A B]; unfold blob_name; now rewrite A, B].
  unfold blob_name. intros H. apply (f_equal list_ascii_of_string) in H.
  rewrite chars_app, (chars_app "torch_tensor_") in H. apply app_inv_head in H.
  assert (A : forall t, (list_ascii_of_string (String.concat "_" (map size_text (t_shape t)) ++ "_" ++ dtype_name (t_dtype t)) =
    list_ascii_of_string (String.concat "_" (map size_text (t_shape t)) ++ "_") ++
    "t"%char :: list_ascii_of_string (dtype_rest (t_dtype t)))%list).
  { intros v. rewrite chars_app, (chars_app _ "_"), <- app_assoc. f_equal. cbn [append list_ascii_of_string app].
    f_equal. rewrite dtype_split. reflexivity. }
  rewrite !A in H. apply sep_unique in H; [|apply joined_no_t|apply joined_no_t].
  destruct H as [H1 H2]. apply chars_inj in H2. apply dtype_rest_inj in H2. split; [|exact H2].
  rewrite !chars_app in H1. apply app_inv_tail in H1. apply chars_inj in H1. now apply joined_sizes_inj.
Qed.

(** ** Sequences of literals *)
(** Tensors that are not bool stay alive: an address always holds the same tensor. *)
Definition stable (l : list (Z * Z * tensor)) : Prop :=
  forall a tmp t a' tmp' t', In (a, tmp, t) l -> In (a', tmp', t') l -> a = a' -> t = t'.
Definition table_ok (l : list (Z * Z * tensor)) (r : table) : Prop :=
  forall a x, tfind a r = Some x -> exists tmp t, In (a, tmp, t) l /\ represents x t.

Lemma is_bool_true : forall t, is_bool t = true <-> t_dtype t = t_bool.
Proof. intros t. unfold is_bool. destruct (t_dtype t); split; congruence. Qed.
Lemma is_bool_false : forall t, is_bool t = false <-> t_dtype t <> t_bool.
Proof. intros t. unfold is_bool. destruct (t_dtype t); split; congruence. Qed.
(** C92. Every literal of a program without bool tensors is the literal of its own tensor,
    whatever was imported before. *)
Theorem C92_each_literal_is_its_tensor : forall ml l xs r,
  stable l -> (forall a tmp t, In (a, tmp, t) l -> t_dtype t <> t_bool) ->
  import_tensors ml l [] = Some (xs, r) ->
  Forall2 (fun p x => represents (fst x) (snd p) /\ snd x = false) l xs.
Proof.
  intros ml l xs r Hs Hb H.
  assert (G : forall done rest r0 xs r1, l = (done ++ rest)%list -> table_ok l r0 ->
    import_tensors ml rest r0 = Some (xs, r1) ->
    Forall2 (fun p x => represents (fst x) (snd p) /\ snd x = false) rest xs).
  { intros done rest. revert done. induction rest as [|[[a tmp] t] rest IH]; intros done r0 ys r1 El Ok E; cbn in E.
    - injection E as <- <-. constructor.
    - assert (Hin : In (a, tmp, t) l) by (rewrite El; apply in_or_app; right; now left).
      unfold import_tensor in E. rewrite (proj2 (is_bool_false t) (Hb _ _ _ Hin)) in E.
      destruct (literal_op ml a t r0) as [[x r2]|] eqn:E1; [|discriminate]. cbn [obind] in E.
      destruct (import_tensors ml rest r2) as [[zs r3]|] eqn:E2; [|discriminate]. injection E as <- <-.
      assert (P : represents x t /\ table_ok l r2).
      { unfold literal_op in E1. destruct (tfind a r0) as [y|] eqn:Ef.
        - injection E1 as <- <-. destruct (Ok a y Ef) as (tmp' & t' & Hin' & R).
          rewrite (Hs _ _ _ _ _ _ Hin Hin' eq_refl). auto.
        - destruct (literal_attr ml t) as [y|] eqn:Ea; [|discriminate]. injection E1 as <- <-.
          apply C92_literal_is_the_tensor in Ea. split; [exact Ea|]. intros b z. cbn.
          destruct (Z.eqb_spec a b) as [->|]; [|apply Ok]. intros [= <-]. exists tmp, t. auto. }
      destruct P as [P1 P2]. constructor; [auto|].
      apply (IH (done ++ [(a, tmp, t)])%list r2 zs r3); auto. rewrite <- app_assoc. exact El. }
  apply (G [] l [] xs r); auto. intros a x. discriminate.
Qed.
(** The same with bool tensors, as long as their copies get new addresses. *)
Theorem C92_bool_literals_partial : forall ml l xs r,
  (forall a tmp t, In (a, tmp, t) l -> t_dtype t = t_bool) ->
  NoDup (map (fun p => snd (fst p)) l) ->
  import_tensors ml l [] = Some (xs, r) ->
  Forall2 (fun p x => represents (fst x) (to_uint8 (snd p)) /\ snd x = true) l xs.
Proof.
  intros ml l xs r Hb Nd H.
  assert (G : forall rest r0 ys r1, NoDup (map (fun p => snd (fst p)) rest) ->
    (forall a tmp t, In (a, tmp, t) rest -> t_dtype t = t_bool) ->
    (forall a tmp t, In (a, tmp, t) rest -> tfind tmp r0 = None) ->
    import_tensors ml rest r0 = Some (ys, r1) ->
    Forall2 (fun p x => represents (fst x) (to_uint8 (snd p)) /\ snd x = true) rest ys).
  { clear. intros rest. induction rest as [|[[a tmp] t] rest IH]; intros r0 ys r1 Nd Hb Hf E; cbn in E.
    - injection E as <- <-. constructor.
    - unfold import_tensor in E. rewrite (proj2 (is_bool_true t) (Hb a tmp t (or_introl eq_refl))) in E.
      unfold literal_op in E. rewrite (Hf a tmp t (or_introl eq_refl)) in E.
      destruct (literal_attr ml (to_uint8 t)) as [x|] eqn:Ea; [|discriminate]. cbn [obind] in E.
      destruct (import_tensors ml rest ((tmp, x) :: r0)) as [[zs r3]|] eqn:E2; [|discriminate]. injection E as <- <-.
      cbn in Nd. inversion Nd as [|? ? Hn Nd']; subst.
      constructor; [split; [now apply C92_literal_is_the_tensor in Ea|reflexivity]|].
      apply (IH ((tmp, x) :: r0) zs r3); auto.
      + intros a' tmp' t' Hi. apply (Hb a' tmp' t'). now right.
      + intros a' tmp' t' Hi. cbn. destruct (Z.eqb_spec tmp tmp') as [->|].
        * exfalso. apply Hn. change tmp' with (snd (fst (a', tmp', t'))).
          now apply (in_map (fun p : Z * Z * tensor => snd (fst p))).
        * apply (Hf a' tmp' t'). now right. }
  apply (G l [] xs r); auto.
Qed.
(** The copy of a bool tensor is released as soon as its literal is made, so the copy of the
    next bool tensor may get the same address, and then the literal of the first. *)
Theorem C92_second_bool_literal_refuted : exists l xs r,
  stable l /\ import_tensors true l [] = Some (xs, r) /\
  (* no copy is at the address of a tensor that is still alive *)
  (forall a tmp t a' tmp' t', In (a, tmp, t) l -> In (a', tmp', t') l -> tmp <> a') /\
  ~ Forall2 (fun p x => represents (fst x) (to_uint8 (snd p))) l xs.
Proof.
  exists [(1, 9, Tn t_bool [2] [0; 1]); (2, 9, Tn t_bool [2] [1; 1])].
  eexists _, _. split; [|split; [vm_compute; reflexivity|split]].
  - intros a tmp t a' tmp' t' H H' E. cbn in H, H'.
    repeat destruct H as [H|H]; repeat destruct H' as [H'|H']; try contradiction; congruence.
  - intros a tmp t a' tmp' t' H H'. cbn in H, H'.
    repeat destruct H as [H|H]; repeat destruct H' as [H'|H']; try contradiction;
    injection H; injection H'; intros; subst; discriminate.
  - intros F. inversion F as [|? ? ? ? _ F']; subst. inversion F' as [|? ? ? ? R _]; subst.
    destruct R as (_ & _ & R). discriminate.
Qed.

Example C92_nonvacuous :
  literal_attr false (Tn t_float32 [2; 3] [1; 2; 3; 4; 5; 6]) =
    Some (Resource "torch_tensor_2_3_torch.float32" (FloatT F32) [2; 3] [1; 2; 3; 4; 5; 6]) /\
  literal_attr false (Tn t_int64 [] [7]) = Some (Dense (IntT 64 Signed) [] [7]) /\
  literal_attr false (Tn t_bfloat16 [] [7]) = None /\
  import_tensors true [(1, 0, Tn t_int64 [2] [7; 8]); (2, 0, Tn t_int8 [] [3]); (1, 0, Tn t_int64 [2] [7; 8])] [] <> None /\
  import_tensors true [(1, 5, Tn t_bool [2] [0; 1]); (2, 6, Tn t_bool [2] [1; 1])] [] <> None.
Proof. repeat split; vm_compute; try reflexivity; discriminate. Qed.

Print Assumptions C92_literal_is_the_tensor.
Print Assumptions C92_single_elements_in_place.
Print Assumptions C92_dtypes_with_literals.
Print Assumptions C92_blob_names_are_injective.
Print Assumptions C92_each_literal_is_its_tensor.
Print Assumptions C92_bool_literals_partial.
Print Assumptions C92_second_bool_literal_refuted.
