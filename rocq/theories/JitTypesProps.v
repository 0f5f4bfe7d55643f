(** C119: types, tensors, operator names and positions keep their meaning when TorchScript is imported. *)
From Coq Require Import ZArith Bool String Ascii Lia List.
From Verif Require Import Prelude DtypeModel TypesModel TypesSpec TypesProps JitTypesModel JitTypesSpec.
From Verif Require RegistryModel RegistrySpec RegistryProps.
Import ListNotations.
Open Scope string_scope.
Open Scope list_scope.
Open Scope Z_scope.

Section Tree.
Context (P : jit -> Prop).
Context (Ht : forall s z, P (JTensor s z)) (Ha : forall j, In j [JInt; JFloat; JBool; JNumber; JString; JNone; JAny; JDevice; JGenerator; JOther] -> P j) (Ho : forall t, P t -> P (JOptional t)) (Hl : forall t, P t -> P (JList t)) (Htu : forall l, Forall P l -> P (JTuple l)) (Hu : forall l, Forall P l -> P (JUnion l)) (Hd : forall k v, P k -> P v -> P (JDict k v)) (Hc : forall n b, P (JClass n b)).
Fixpoint jit_tree (j : jit) : P j :=
  match j with
  | JTensor s z => Ht s z
  | JOptional t => Ho t (jit_tree t)
  | JList t => Hl t (jit_tree t)
  | JTuple l => Htu l ((fix all l : Forall P l := match l with [] => Forall_nil _ | x :: r => Forall_cons x (jit_tree x) (all r) end) l)
  | JUnion l => Hu l ((fix all l : Forall P l := match l with [] => Forall_nil _ | x :: r => Forall_cons x (jit_tree x) (all r) end) l)
  | JDict k v => Hd k v (jit_tree k) (jit_tree v)
  | JClass n b => Hc n b
  | JInt => Ha JInt ltac:(cbn; tauto) | JFloat => Ha JFloat ltac:(cbn; tauto) | JBool => Ha JBool ltac:(cbn; tauto) | JNumber => Ha JNumber ltac:(cbn; tauto)
  | JString => Ha JString ltac:(cbn; tauto) | JNone => Ha JNone ltac:(cbn; tauto) | JAny => Ha JAny ltac:(cbn; tauto) | JDevice => Ha JDevice ltac:(cbn; tauto)
  | JGenerator => Ha JGenerator ltac:(cbn; tauto) | JOther => Ha JOther ltac:(cbn; tauto)
  end.
End Tree.

(** ** Scalar types *)
Theorem C119_scalars : forall s t, scalar_raw s = Some t <-> importable s /\ getTypeForScalarType s = Some t.
Proof.
  intros s t. unfold importable. destruct s; cbn; split; try (intros E; discriminate); try (intros E; split; [tauto|exact E]); try (intros [_ E]; exact E); intros [K _]; decompose [or] K; try discriminate; contradiction.
Qed.
Theorem C119_scalars_return : forall s t, scalar_raw s = Some t -> getScalarTypeForType t = Some s.
Proof. intros s t. destruct s; cbn; intros E; try discriminate; injection E as <-; reflexivity. Qed.
Theorem C119_scalars_refuted : exists s t, getTypeForScalarType s = Some t /\ scalar_raw s = None.
Proof. exists QInt32, QInt32T. split; reflexivity. Qed.

(** ** Types *)
Lemma collect_iff l : forall ts, collect l = All ts <-> Forall2 (fun o t => o = Made t) l ts.
Proof.
  induction l as [|[t| | |] l IH]; intros ts; cbn [collect].
  - split; [intros E; injection E as <-; constructor|intros F; inversion F; reflexivity].
  - destruct (collect l) as [us|f].
    + split; [intros E; injection E as <-; constructor; [reflexivity|now apply IH]|]. intros F. inversion F as [|? t' ? us' E F']; subst. injection E as <-. apply IH in F'. congruence.
    + split; [discriminate|]. intros F. inversion F as [|? t' ? us' E F']; subst. apply IH in F'. discriminate.
  - split; [destruct (collect l); discriminate|]. intros F. inversion F. discriminate.
  - split; [discriminate|]. intros F. inversion F. discriminate.
  - split; [discriminate|]. intros F. inversion F. discriminate.
Qed.
Lemma collect_fails l : forall f, collect l = Fails f -> f = Throws \/ f = Invalid.
Proof.
  induction l as [|[t| | |] l IH]; cbn [collect]; intros f; [discriminate| | |intros E; injection E as <-; auto|intros E; injection E as <-; auto].
  - destruct (collect l) as [us|g]; [discriminate|]. intros E. injection E as <-. now apply IH.
  - destruct (collect l) as [us|g]; [intros E; injection E as <-; auto|]. intros E. injection E as <-. now apply IH.
Qed.
Lemma Forall2_map_l {A B C} (f : A -> B) (R : B -> C -> Prop) l : forall m, Forall2 R (map f l) m <-> Forall2 (fun x y => R (f x) y) l m.
Proof.
  induction l as [|x l IH]; intros m; cbn [map]; split; intros F; inversion F; subst; constructor; auto; now apply IH.
Qed.
Lemma Forall2_same {A B} (R R' : A -> B -> Prop) l : Forall (fun x => forall y, R x y <-> R' x y) l -> forall m, Forall2 R l m <-> Forall2 R' l m.
Proof.
  induction 1 as [|x l H _ IH]; intros m; split; intros F; inversion F; subst; constructor; auto; try (now apply H); now apply IH.
Qed.
Lemma made_valid : forall j o t, from_torch o j = Made t -> isAnyTorchType t = true.
Proof.
  intros j o t. destruct j; cbn [from_torch]; intros E; try (injection E as <-; reflexivity); try discriminate.
  - destruct (ignore_shapes_and_dtypes o); [injection E as <-; reflexivity|]. destruct (match scalar with Some s => _ | None => _ end); [|discriminate]. destruct symbolic_sizes; injection E as <-; reflexivity.
  - destruct (from_torch o j); try discriminate. injection E as <-. apply orb_true_r.
  - destruct (collect _) as [ts|f] eqn:C; [injection E as <-; apply orb_true_r|]. apply collect_fails in C as [-> | ->]; discriminate.
  - destruct (collect _) as [ts|f] eqn:C; [injection E as <-; apply orb_true_r|]. apply collect_fails in C as [-> | ->]; discriminate.
  - destruct (from_torch o j); try discriminate. injection E as <-. apply orb_true_r.
  - destruct (collect _) as [[|k [|v [|]]]|f] eqn:C; try discriminate; [destruct (dict_verify k v); [injection E as <-; apply orb_true_r|discriminate]|]. apply collect_fails in C as [-> | ->]; discriminate.
  - destruct (map_custom_class name custom) as [x| | |] eqn:M; try discriminate; [|injection E as <-; apply orb_true_r]. injection E as <-. unfold map_custom_class in M.
    destruct name as [n|]; [|discriminate]. destruct (negb custom); [discriminate|]. destruct (String.eqb n linear_params); [injection M as <-; reflexivity|discriminate].
Qed.
Lemma dict_key_iff t : isAnyTorchDictKeyType t = true <-> dict_key t.
Proof.
  unfold dict_key. split.
  - destruct t as [[]| | | | | | |]; cbn; intros E; try discriminate; eauto 8.
  - intros [K|[x ->]]; [|reflexivity]. cbn in K. decompose [or] K; try contradiction; subst; reflexivity.
Qed.
Theorem C119_types : forall j o t, from_torch o j = Made t <-> means default_options o j t.
Proof.
  induction j as [s z|j K|j IH|j IH|l IH|l IH|k v IHk IHv|n b] using jit_tree; intros o t; cbn [from_torch].
  - destruct (ignore_shapes_and_dtypes o) eqn:G.
    + split; [intros E; injection E as <-; now constructor|intros M; inversion M; subst; [reflexivity|congruence]].
    + assert (X : forall d : option dtype, element_is s d <-> exists e, match s with None => Some None | Some s => option_map Some (scalar_raw s) end = Some e /\ d = option_map Builtin e).
      { intros d. destruct s as [s|]; cbn [element_is].
        - destruct d as [[m| |]|]; [|split; [intros []|intros (e & E & D); destruct e; discriminate]|split; [intros []|intros (e & E & D); destruct e; discriminate]|split; [intros []|intros (e & E & D); destruct e; [discriminate|destruct (scalar_raw s); discriminate]]].
          rewrite <- C119_scalars. split; [intros ->; exists (Some m); split; reflexivity|]. intros (e & E & D). destruct (scalar_raw s); [|discriminate]. injection E as <-. now injection D as <-.
        - destruct d as [d|]; split; [intros []|intros (e & E & D); injection E as <-; discriminate|intros _; exists None; split; reflexivity|auto]. }
      assert (Y : forall n, sizes_are z n <-> n = option_map (map (fun d => match d with Some n => n | None => -1 end)) z).
      { intros n. destruct z as [z|], n as [n|]; cbn; split; try discriminate; try contradiction; auto.
        - intros F. f_equal. induction F as [|[]]; cbn in *; congruence.
        - intros E. injection E as ->. induction z as [|[]]; cbn; constructor; cbn; auto. }
      split.
      * intros E. destruct (match s with Some s => _ | None => _ end) as [e|] eqn:M; [|discriminate].
        pose proof (means_tensor default_options o s z (option_map Builtin e) _ G (proj2 (X _) (ex_intro _ e (conj eq_refl eq_refl))) (proj2 (Y _) eq_refl)) as R.
        destruct z as [z|]; injection E as <-; exact R.
      * intros M. inversion M as [|? ? ? d n G' EL SZ| | | | | | | | | | | | | | | | |]; subst; [congruence|]. apply X in EL as (e & -> & ->). apply Y in SZ as ->. destruct z; reflexivity.
  - cbn in K. decompose [or] K; subst; cbn [from_torch]; try contradiction; (split; [intros E; try discriminate; injection E as <-; constructor|intros M; inversion M; reflexivity]).
  - split.
    + destruct (from_torch o j) eqn:E; try discriminate. cbn. intros K. injection K as <-. constructor. now apply IH.
    + intros M. inversion M as [| | | | | | | | | | |? ? t' M'| | | | | | |]; subst. apply IH in M'. rewrite M'. reflexivity.
  - split.
    + destruct (from_torch o j) eqn:E; try discriminate. cbn. intros K. injection K as <-. constructor. now apply IH.
    + intros M. inversion M as [| | | | | | | | | | | |? ? t' M'| | | | | |]; subst. apply IH in M'. rewrite M'. reflexivity.
  - assert (X : forall ts, collect (map (fun t => from_torch o t) l) = All ts <-> Forall2 (means default_options o) l ts).
    { intros ts. rewrite collect_iff, Forall2_map_l. apply Forall2_same. apply Forall_forall. intros x K y. rewrite Forall_forall in IH. now apply IH. }
    split.
    + destruct (collect _) as [ts|f] eqn:E; [intros K; injection K as <-; constructor; now apply X|]. apply collect_fails in E as [-> | ->]; discriminate.
    + intros M. inversion M; subst. rewrite (proj2 (X ts)) by assumption. reflexivity.
  - assert (X : forall ts, collect (map (fun t => from_torch default_options t) l) = All ts <-> Forall2 (means default_options default_options) l ts).
    { intros ts. rewrite collect_iff, Forall2_map_l. apply Forall2_same. apply Forall_forall. intros x K y. rewrite Forall_forall in IH. now apply IH. }
    split.
    + destruct (collect _) as [ts|f] eqn:E; [intros K; injection K as <-; constructor; now apply X|]. apply collect_fails in E as [-> | ->]; discriminate.
    + intros M. inversion M; subst. rewrite (proj2 (X ts)) by assumption. reflexivity.
  - split.
    + destruct (collect _) as [ts|f] eqn:E; [|apply collect_fails in E as [-> | ->]; discriminate]. apply collect_iff in E. inversion E as [|? k' ? ? E1 E']; subst. inversion E' as [|? v' ? ? E2 E'']; subst. inversion E''; subst.
      destruct (dict_verify k' v') eqn:D; [|discriminate]. intros K. injection K as <-. unfold dict_verify in D. apply andb_prop in D as [D _]. constructor; [now apply IHk|now apply IHv|now apply dict_key_iff].
    + intros M. inversion M as [| | | | | | | | | | | | | | |? ? ? k' v' M1 M2 D| | |]; subst. apply IHk in M1. apply IHv in M2. rewrite M1, M2. cbn [collect]. unfold dict_verify. rewrite (proj2 (dict_key_iff k') D), (made_valid _ _ _ M2). reflexivity.
  - unfold map_custom_class. destruct n as [n|].
    + destruct b; cbn [negb].
      * destruct (String.eqb_spec n linear_params) as [->|N].
        -- split; [intros E; injection E as <-; constructor|intros M; inversion M; reflexivity].
        -- split; [discriminate|intros M; inversion M; subst; now contradiction N].
      * split; [intros E; injection E as <-; constructor|intros M; inversion M; reflexivity].
    + split; [intros E; injection E as <-; constructor|intros M; inversion M; reflexivity].
Qed.
(** The null type stands for types that are not known, and for tensors of an unknown element type. *)
Theorem C119_no_type : forall j o, from_torch o j = Null <-> j = JOther \/ exists s z, j = JTensor (Some s) z /\ ignore_shapes_and_dtypes o = false /\ ~ importable s.
Proof.
  intros j o. split.
  - destruct j; cbn [from_torch]; intros E; try discriminate; [| | | | | | |now left].
    + right. destruct (ignore_shapes_and_dtypes o); [discriminate|]. destruct scalar as [s|]; [|destruct symbolic_sizes; discriminate]. exists s, symbolic_sizes. split; [reflexivity|]. split; [reflexivity|].
      destruct (scalar_raw s) as [t|] eqn:R; [destruct symbolic_sizes; discriminate|]. intros K. assert (H : forall t, scalar_raw s <> Some t) by congruence. destruct (getTypeForScalarType s) as [t|] eqn:G; [apply (H t), C119_scalars; auto|]. unfold importable in K. cbn in K. decompose [or] K; try contradiction; subst; discriminate.
    + destruct (from_torch o j); discriminate.
    + destruct (collect _) as [ts|f] eqn:C; [discriminate|]. apply collect_fails in C as [-> | ->]; discriminate.
    + destruct (collect _) as [ts|f] eqn:C; [discriminate|]. apply collect_fails in C as [-> | ->]; discriminate.
    + destruct (from_torch o j); discriminate.
    + destruct (collect _) as [[|k [|v [|]]]|f] eqn:C; try discriminate; [destruct (dict_verify k v); discriminate|]. apply collect_fails in C as [-> | ->]; discriminate.
    + unfold map_custom_class in E. destruct name as [n|]; [|discriminate]. destruct (negb custom); [discriminate|]. destruct (String.eqb n linear_params); discriminate.
  - intros [->|(s & z & -> & G & N)]; [reflexivity|]. cbn [from_torch]. rewrite G. destruct (scalar_raw s) as [t|] eqn:R; [|reflexivity]. apply C119_scalars in R. tauto.
Qed.
(** Options hold inside unions only if they are the default ones, or no tensor is inside. *)
Lemma tensor_free_means : forall j u u' o o' t, tensor_free j = true -> means u o j t -> means u' o' j t.
Proof.
  induction j as [s z|j K|j IH|j IH|l IH|l IH|k v IHk IHv|n b] using jit_tree; intros u u' o o' t F M; cbn [tensor_free] in F; try discriminate.
  - cbn in K. decompose [or] K; subst; try contradiction; inversion M; subst; constructor.
  - inversion M; subst. constructor. eauto.
  - inversion M; subst. constructor. eauto.
  - inversion M as [| | | | | | | | | | | | |? ? ts F2| | | | |]; subst. constructor. rewrite forallb_forall in F. rewrite Forall_forall in IH. clear M. induction F2; constructor; [apply (IH x (or_introl eq_refl) u u' o o'); [apply F; now left|assumption]|]. apply IHF2; [intros w Y; apply IH; now right|intros w Y; apply F; now right].
  - inversion M as [| | | | | | | | | | | | | |? ? ts F2| | | |]; subst. constructor. rewrite forallb_forall in F. rewrite Forall_forall in IH. clear M. induction F2; constructor; [apply (IH x (or_introl eq_refl) u u' u u'); [apply F; now left|assumption]|]. apply IHF2; [intros w Y; apply IH; now right|intros w Y; apply F; now right].
  - apply andb_prop in F as [F1 F2]. inversion M; subst. constructor; eauto.
  - inversion M; subst; constructor.
Qed.
Theorem C119_options_partial : forall j o u t, unions_tensor_free j = true -> means u o j t -> means o o j t.
Proof.
  induction j as [s z|j K|j IH|j IH|l IH|l IH|k v IHk IHv|n b] using jit_tree; intros o u t F M; cbn [unions_tensor_free] in F.
  - inversion M; subst; now constructor.
  - cbn in K. decompose [or] K; subst; try contradiction; inversion M; subst; constructor.
  - inversion M; subst. constructor. eauto.
  - inversion M; subst. constructor. eauto.
  - inversion M as [| | | | | | | | | | | | |? ? ts F2| | | | |]; subst. constructor. rewrite forallb_forall in F. rewrite Forall_forall in IH. clear M. induction F2; constructor; [apply (IH x (or_introl eq_refl) o u); [apply F; now left|assumption]|]. apply IHF2; [intros w Y; apply IH; now right|intros w Y; apply F; now right].
  - inversion M as [| | | | | | | | | | | | | |? ? ts F2| | | |]; subst. constructor. rewrite forallb_forall in F. clear M IH. induction F2; constructor; [apply (tensor_free_means x u o u o); [apply F; now left|assumption]|]. apply IHF2. intros w Y; apply F; now right.
  - apply andb_prop in F as [F1 F2]. inversion M; subst. constructor; eauto.
  - inversion M; subst; constructor.
Qed.
Theorem C119_options_refuted : exists o j t t', from_torch o j = Made t /\ means o o j t' /\ t <> t'.
Proof.
  exists {| assume_value_semantics := true; ignore_shapes_and_dtypes := true |}, (JUnion [JTensor (Some Float) (Some [Some 2]); JInt]). eexists. eexists. split; [reflexivity|].
  split; [constructor; constructor; [now apply means_unknown|constructor; [constructor|constructor]]|]. discriminate.
Qed.
(** The options that are taken there *)
Theorem C119_default_options : assume_value_semantics default_options = false /\ ignore_shapes_and_dtypes default_options = false.
Proof. split; reflexivity. Qed.
Theorem C119_values : forall o l ts, types_from_values o l = Some ts <-> Forall2 (means default_options o) l ts.
Proof.
  intros o. induction l as [|j l IH]; intros ts; cbn [types_from_values].
  - split; [intros E; injection E as <-; constructor|intros F; inversion F; reflexivity].
  - split.
    + destruct (from_torch o j) eqn:E; try discriminate. destruct (types_from_values o l) as [us|]; [|discriminate]. cbn. intros K. injection K as <-. constructor; [now apply C119_types|now apply IH].
    + intros F. inversion F as [|? t ? us M F']; subst. apply C119_types in M. apply IH in F'. rewrite M, F'. reflexivity.
Qed.
Theorem C119_function_types : forall o args rets i r, function_type o args rets = Some (i, r) <-> Forall2 (means default_options o) args i /\ Forall2 (means default_options o) rets r.
Proof.
  intros o args rets i r. rewrite <- !C119_values. unfold function_type. destruct (types_from_values o args) as [x|]; [|split; [discriminate|intros [E _]; discriminate]]. destruct (types_from_values o rets) as [y|]; [|split; [discriminate|intros [_ E]; discriminate]].
  cbn. split; [intros E; injection E as <- <-; auto|intros [E E']; congruence].
Qed.

(** ** Bounds of arguments *)
Theorem C119_type_bounds : forall inputs ann i b, nth_error (arg_attrs inputs ann) i = Some (Some b) <->
  (i < List.length inputs)%nat /\ exists l shape d vs, ann = Some l /\ nth_error l i = Some (Some shape, Some d, vs) /\ value_semantics b = vs /\ sizes b = Some shape /\ sparsity b = None /\
    (importable d -> element_is (Some d) (elt b)) /\ (~ importable d -> elt b = None).
Proof.
  intros inputs ann i b. unfold arg_attrs. rewrite nth_error_map.
  assert (N : nth_error (seq 0 (List.length inputs)) i = if (i <? List.length inputs)%nat then Some i else None).
  { destruct (Nat.ltb_spec i (List.length inputs)) as [L|L]; [|apply nth_error_None; now rewrite seq_length]. rewrite (nth_error_nth' _ 0%nat) by now rewrite seq_length. now rewrite seq_nth. }
  rewrite N. destruct (Nat.ltb_spec i (List.length inputs)) as [L|L]; [|split; [discriminate|intros [K _]; lia]]. cbn [option_map]. split.
  - intros E. injection E as E. split; [exact L|]. unfold type_bound in E. destruct ann as [l|]; [|discriminate]. destruct (nth_error l i) as [[[[sh|] [d|]] vs]|] eqn:X; try discriminate. injection E as <-.
    exists l, sh, d, vs. split; [reflexivity|]. split; [exact X|]. split; [reflexivity|]. split; [reflexivity|]. split; [reflexivity|]. cbn [elt tensor]. split.
    + intros K. destruct (scalar_raw d) as [t|] eqn:R; [apply C119_scalars in R; exact R|]. exfalso. destruct (getTypeForScalarType d) as [t|] eqn:G; [assert (scalar_raw d = Some t) by (apply C119_scalars; auto); congruence|].
      unfold importable in K. cbn in K. decompose [or] K; try contradiction; subst; discriminate.
    + intros K. destruct (scalar_raw d) as [t|] eqn:R; [apply C119_scalars in R; tauto|reflexivity].
  - intros (_ & l & sh & d & vs & -> & X & V & Z & P & E1 & E2). unfold type_bound. rewrite X. unfold tensor. destruct b as [v z e p]. cbn in *. subst. do 3 f_equal.
    destruct (scalar_raw d) as [t|] eqn:R.
    + apply C119_scalars in R as [K G]. specialize (E1 K). destruct e as [[m| |]|]; try contradiction. destruct E1 as [_ E1]. cbn. congruence.
    + cbn. symmetry. apply E2. intros K. specialize (E1 K). destruct e as [[m| |]|]; try contradiction. apply C119_scalars in E1. congruence.
Qed.
Theorem C119_type_bounds_refuted : exists d b, arg_attrs [Atom AnyA] (Some [(Some [2], Some d, true)]) = [Some b] /\ elt b = None.
Proof. exists Float8_e5m2. eexists. split; reflexivity. Qed.

(** ** Literals *)
Theorem C119_literals : forall s t c, elements_attr s = Some (t, c) <-> s <> Short /\ exists r, stored s = Some r /\ holds c = r /\ t = literal_type r.
Proof.
  intros s t c. unfold elements_attr. destruct s; cbn; (split; [intros E; first [discriminate E | injection E as <- <-; split; [discriminate|eexists; split; [reflexivity|split; reflexivity]]]|intros (N & r & E & H & T); try discriminate; try (now contradiction N); injection E as <-; subst t; destruct c; try discriminate; reflexivity]).
Qed.
Theorem C119_literals_refuted : stored Short = Some (SignedR 16) /\ scalar_raw Short = Some (IntT 16 Signed) /\ elements_attr Short = None.
Proof. split; [|split]; reflexivity. Qed.

(** ** Adjustment of static information *)
Lemma ty_eqb_iff a b : ty_eqb a b = true <-> a = b.
Proof. apply ty_eqb_eq. Qed.
Theorem C119_adjust : forall t d r a, adjust t d r = Some a <->
  (a = Same /\ t = d) \/
  (t <> d /\ exists x y, t = Tens x /\ d = Tens y /\ value_semantics x = value_semantics y /\ a = StaticInfoCast) \/
  (t <> d /\ (forall x y, t = Tens x -> d = Tens y -> value_semantics x <> value_semantics y) /\
    ((sub t d /\ a = if r then Same else Derefine) \/ (~ sub t d /\ sub d t /\ a = UncheckedCast))).
Proof.
  intros t d r a. unfold adjust. destruct (ty_eqb t d) eqn:E.
  - apply ty_eqb_iff in E as ->. split; [intros K; injection K as <-; auto|]. intros [[-> _]|[[N _]|[N _]]]; [reflexivity|contradiction|contradiction].
  - assert (N : t <> d) by (intros ->; rewrite (proj2 (ty_eqb_iff d d) eq_refl) in E; discriminate). destruct (both_tensors t d) eqn:B.
    + destruct t as [| | | | | | |x]; try discriminate. destruct d as [| | | | | | |y]; try discriminate. cbn in B. apply eqb_prop in B. split.
      * intros K. injection K as <-. right. left. split; [exact N|]. exists x, y. auto.
      * intros [[_ K]|[(_ & x' & y' & _ & _ & _ & ->)|(_ & K & _)]]; [contradiction|reflexivity|]. exfalso. exact (K x y eq_refl eq_refl B).
    + assert (H : forall x y, t = Tens x -> d = Tens y -> value_semantics x <> value_semantics y) by (intros x y -> ->; cbn in B; now apply eqb_false_iff).
      destruct (isValidSubtype t d) eqn:S1.
      * apply C52_subtyping_decides_relation in S1. split.
        -- intros K. right. right. split; [exact N|]. split; [exact H|]. left. split; [exact S1|]. destruct r; injection K as <-; reflexivity.
        -- intros [[_ K]|[(_ & x' & y' & X & Y & V & _)|(_ & _ & [(_ & ->)|(K & _)])]]; [contradiction|exfalso; exact (H x' y' X Y V)|destruct r; reflexivity|contradiction].
      * assert (S1' : ~ sub t d) by (intros K; apply C52_subtyping_decides_relation in K; congruence). destruct (isValidSubtype d t) eqn:S2.
        -- apply C52_subtyping_decides_relation in S2. split; [intros K; injection K as <-; right; right; auto 8|].
           intros [[_ K]|[(_ & x' & y' & X & Y & V & _)|(_ & _ & [(K & _)|(_ & _ & ->)])]]; [contradiction|exfalso; exact (H x' y' X Y V)|contradiction|reflexivity].
        -- split; [discriminate|]. intros [[_ K]|[(_ & x' & y' & X & Y & V & _)|(_ & _ & [(K & _)|(_ & K & _)])]]; [contradiction|exfalso; exact (H x' y' X Y V)|contradiction|]. apply C52_subtyping_decides_relation in K. congruence.
Qed.
Theorem C119_adjusted : forall t d r a, adjust t d r = Some a -> adjusted_type a t d = d \/ (r = true /\ sub t d /\ adjusted_type a t d = t).
Proof.
  intros t d r a E. apply C119_adjust in E as [[-> ->]|[(_ & x & y & -> & -> & _ & ->)|(_ & _ & [(S & ->)|(_ & _ & ->)])]]; auto. destruct r; auto.
Qed.
Theorem C119_adjust_all : forall r ts ds l, adjust_all ts ds r = Some l <-> Forall2 (fun p a => adjust (fst p) (snd p) r = Some a) (combine ts ds) l /\ List.length ts = List.length ds.
Proof.
  intros r. induction ts as [|t ts IH]; intros [|d ds] l; cbn [adjust_all combine List.length].
  - split; [intros E; injection E as <-; split; [constructor|reflexivity]|intros [F _]; inversion F; reflexivity].
  - split; [discriminate|intros [_ E]; discriminate].
  - split; [discriminate|intros [_ E]; discriminate].
  - split.
    + destruct (adjust t d r) as [a|] eqn:A; [|discriminate]. cbn [obind]. destruct (adjust_all ts ds r) as [m|] eqn:M; [|discriminate]. cbn [obind]. intros E. injection E as <-. apply IH in M as [M L]. split; [constructor; [exact A|exact M]|congruence].
    + intros [F L]. inversion F as [|? a ? m A F']; subst. cbn [fst snd] in A. rewrite A. cbn [obind]. rewrite (proj2 (IH ds m)); [reflexivity|]. split; [exact F'|now injection L].
Qed.

(** ** Names of operations *)
Lemma replace_at (ns name : RegistryModel.text) : ~ In RegistryModel.colon ns -> replace_separator (ns ++ RegistryModel.colon :: RegistryModel.colon :: name) = Some (ns ++ RegistryModel.dot :: name).
Proof.
  induction ns as [|x ns IH]; intros N; [reflexivity|]. cbn [replace_separator app]. destruct (RegistryModel.char_eqb x RegistryModel.colon) eqn:E.
  - exfalso. apply N. left. unfold RegistryModel.colon in *. destruct x; cbn in E; try discriminate. apply Ascii.eqb_eq in E. now subst.
  - rewrite IH by (intros K; apply N; now right). reflexivity.
Qed.
(** The operation has the name that the registry gave to the operator when the dialect was generated. *)
Theorem C119_operation_names : forall ns name overload a b args rets, ~ In RegistryModel.colon ns ->
  name_suffix (ns ++ RegistryModel.colon :: RegistryModel.colon :: name) overload = Some (RegistryModel.op_name (RegistryModel.jit_operator (ns ++ RegistryModel.colon :: RegistryModel.colon :: name) overload a b args rets)).
Proof.
  intros ns name overload a b args rets N. unfold name_suffix. rewrite (replace_at ns name N). cbn [obind]. pose proof (RegistryProps.C60_parsed_name ns name overload a b args rets N) as T.
  unfold RegistryModel.triple in T. injection T as T1 T2 T3. unfold RegistryModel.op_name, RegistryModel.op_name_atoms. rewrite T1, T2, T3. unfold RegistryModel.nonempty. destruct overload as [|x overload]; cbn [List.length Nat.eqb negb app RegistryModel.join]; [reflexivity|]. now rewrite <- !app_assoc.
Qed.
Theorem C119_operations : forall registered name overload suffix, name_suffix name overload = Some suffix ->
  create_operation registered name overload = Some (if registered (RegistryModel.txt "torch." ++ suffix) then Registered (RegistryModel.txt "torch." ++ suffix) else Opaque suffix).
Proof. intros registered name overload suffix E. unfold create_operation. rewrite E. reflexivity. Qed.
(** Operators with different names become different operations. *)
Lemma after {A} (d : A) x y x' y' : ~ In d x -> ~ In d x' -> x ++ d :: y = x' ++ d :: y' -> x = x' /\ y = y'.
Proof.
  revert x'. induction x as [|a x IH]; intros [|b x'] N N' E; cbn in E.
  - now injection E as ->.
  - injection E as -> _. exfalso. apply N'. now left.
  - injection E as -> _. exfalso. apply N. now left.
  - injection E as -> E. apply IH in E as [-> ->]; [auto|intros K; apply N; now right|intros K; apply N'; now right].
Qed.
Theorem C119_operations_distinct : forall registered ns name ov ns' name' ov' c,
  (forall x, In x [ns; name; ns'; name'] -> ~ In RegistryModel.dot x /\ ~ In RegistryModel.colon x) ->
  create_operation registered (ns ++ RegistryModel.colon :: RegistryModel.colon :: name) ov = Some c ->
  create_operation registered (ns' ++ RegistryModel.colon :: RegistryModel.colon :: name') ov' = Some c -> ns = ns' /\ name = name' /\ ov = ov'.
Proof.
  intros registered ns name ov ns' name' ov' c P. unfold create_operation, name_suffix. rewrite (replace_at ns name), (replace_at ns' name') by (apply P; cbn; tauto). cbn [obind].
  assert (X : forall s s', (if registered (RegistryModel.txt "torch." ++ s) then Registered (RegistryModel.txt "torch." ++ s) else Opaque s) = (if registered (RegistryModel.txt "torch." ++ s') then Registered (RegistryModel.txt "torch." ++ s') else Opaque s') -> s = s').
  { intros s s'. destruct (registered _), (registered _); intros E; try discriminate; injection E as E; auto. }
  intros E E'. rewrite <- E' in E. injection E as E. apply X in E.
  destruct (P ns) as [N1 _]; [cbn; tauto|]. destruct (P ns') as [N1' _]; [cbn; tauto|]. destruct (P name) as [N2 _]; [cbn; tauto|]. destruct (P name') as [N2' _]; [cbn; tauto|].
  unfold RegistryModel.nonempty in E. destruct ov as [|a ov], ov' as [|b ov']; cbn [List.length Nat.eqb negb] in E; rewrite <- ?app_assoc in E; cbn [app] in E.
  - apply after in E as [-> ->]; auto.
  - apply after in E as [-> ->]; auto. exfalso. apply N2. apply in_or_app. right. now left.
  - apply after in E as [-> <-]; auto. exfalso. apply N2'. apply in_or_app. right. now left.
  - apply after in E as [-> E]; auto. apply after in E as [-> ->]; auto.
Qed.

(** ** Positions *)
Lemma chain_some files : forall lines functions first loc, chain files lines functions first loc <> None <-> (List.length files <= List.length lines /\ List.length files <= List.length functions)%nat.
Proof.
  induction files as [|f files IH]; intros lines functions first loc; [cbn; split; [intros _; lia|discriminate]|]. destruct lines as [|l lines]; [cbn; split; [intros K; now contradiction K|lia]|]. destruct functions as [|g functions]; [cbn; split; [intros K; now contradiction K|lia]|].
  cbn [chain List.length]. rewrite IH. lia.
Qed.
Lemma chain_frames files : forall lines functions loc loc', chain files lines functions false loc = Some loc' -> frames loc' = rev (combine (combine files lines) functions) ++ frames loc /\ (files <> [] -> exists a b, loc' = CallSite a b).
Proof.
  induction files as [|f files IH]; intros lines functions loc loc' E; [injection E as <-; split; [reflexivity|intros K; now contradiction K]|]. destruct lines as [|l lines]; [discriminate|]. destruct functions as [|g functions]; [discriminate|].
  cbn [chain] in E. pose proof E as E0. apply IH in E as [E S]. split; [rewrite E; cbn; now rewrite <- app_assoc|]. intros _. destruct files as [|f' files]; [|apply S; discriminate]. cbn in E0. injection E0 as <-. eauto.
Qed.

Theorem C119_located : forall n, (exists loc, node_location n = Some loc) <-> (forall files lines functions, stack n = Some (files, lines, functions) -> (List.length files <= List.length lines /\ List.length files <= List.length functions)%nat).
Proof.
  intros n. unfold node_location. destruct (stack n) as [[[files lines] functions]|].
  - split.
    + intros [loc E] f l g K. injection K as <- <- <-. apply (chain_some files lines functions true Unknown). destruct (chain _ _ _ _ _); [discriminate|discriminate E].
    + intros K. specialize (K _ _ _ eq_refl). apply (chain_some files lines functions true Unknown) in K. destruct (chain _ _ _ _ _) as [loc|]; [cbn [obind]; eauto|now contradiction K].
  - split; [intros _ f l g K; discriminate|]. intros _. cbn [obind]. eauto.
Qed.
(** The name is that of the scope and the operator, around what is said of the source. *)
Theorem C119_location : forall n loc, node_location n = Some loc -> exists base,
  loc = (if string_dec (location_name n) "" then base else Named (location_name n) base) /\
  match source n with
  | Nowhere => base = Unknown
  | Position f l c => base = FileLineCol f l c
  | Frames fs => frames base = fs /\ exists a b, base = CallSite a b
  end.
Proof.
  intros n loc E. unfold node_location in E. match type of E with obind ?e _ = _ => destruct e as [base|] eqn:B; [|discriminate] end. cbn [obind] in E. exists base. split.
  - destruct (string_dec (location_name n) "") as [K|K]; [rewrite K in E; cbn in E; congruence|]. apply String.eqb_neq in K. rewrite K in E. congruence.
  - clear E loc. unfold source. destruct (stack n) as [[[files lines] functions]|].
    + destruct files as [|f files]; [cbn in B; congruence|]. destruct lines as [|l lines]; [discriminate|]. destruct functions as [|g functions]; [discriminate|]. cbn [chain List.length] in B.
      destruct (chain files lines functions false (Named g (FileLineCol f l 0))) as [loc|] eqn:C; [|discriminate]. cbn [obind] in B. injection B as <-. destruct (chain_frames _ _ _ _ _ C) as [F S]. destruct files as [|f' files].
      * cbn in C. injection C as <-. cbn. split; [reflexivity|]. eexists. eexists. reflexivity.
      * cbn [List.length Nat.eqb]. split; [rewrite F; reflexivity|]. apply S. discriminate.
    + destruct (range n) as [[[f l] c]|]; congruence.
Qed.
(** Equal locations: the same is said of the source, under the same name. *)
(** The name of a location: the scope and the operator *)
Theorem C119_location_names : forall n, (operator_name n = None -> location_name n = scope n) /\
  (forall op, operator_name n = Some op -> location_name n = if string_dec (scope n) "" then op else (scope n ++ "/" ++ op)%string).
Proof.
  intros n. unfold location_name. split; [intros ->; reflexivity|]. intros op ->. destruct (string_dec (scope n) "") as [E|E].
  - rewrite E. reflexivity.
  - apply String.eqb_neq in E. rewrite E. cbn [negb]. induction (scope n) as [|x s IH]; [reflexivity|]. clear. induction s as [|y s IH]; [reflexivity|]. cbn in *. injection IH as IH. now rewrite IH.
Qed.
Theorem C119_locations_distinguish : forall n n' loc, node_location n = Some loc -> node_location n' = Some loc -> source n = source n' /\ location_name n = location_name n'.
Proof.
  intros n n' loc E E'. apply C119_location in E as (b & L & B). apply C119_location in E' as (b' & L' & B').
  assert (NN : forall s (b : location), match s with Nowhere => b = Unknown | Position f l c => b = FileLineCol f l c | Frames fs => frames b = fs /\ exists a c, b = CallSite a c end -> forall x y, b <> Named x y).
  { intros [| |] c; [intros -> ? ?; discriminate|intros -> ? ?; discriminate|intros (_ & x & y & ->) ? ?; discriminate]. }
  assert (K : b = b' /\ location_name n = location_name n').
  { destruct (string_dec (location_name n) "") as [K|K], (string_dec (location_name n') "") as [K'|K']; rewrite L in L'.
    - split; [exact L'|congruence].
    - exfalso. exact (NN _ _ B _ _ L').
    - exfalso. exact (NN _ _ B' _ _ (eq_sym L')).
    - injection L' as A C. auto. }
  destruct K as [<- N]. split; [|exact N]. destruct (source n), (source n').
  all: try reflexivity; try (subst b; discriminate); try (destruct B as (F & x & y & ->); discriminate); try (destruct B' as (F & x & y & ->); subst; discriminate).
  - congruence.
  - destruct B as [<- _], B' as [<- _]. reflexivity.
Qed.

Example C119_nonvacuous :
  let o := {| assume_value_semantics := true; ignore_shapes_and_dtypes := false |} in
  from_torch o (JDict JString (JList (JTuple [JTensor (Some QInt8) (Some [Some 3; None]); JOptional (JClass (Some "m.Linear") false)]))) =
    Made (Dict (Atom StringA) (List_ (Tuple [Tens {| value_semantics := true; sizes := Some [3; -1]; elt := Some (Builtin QInt8T); sparsity := None |}; Optional (Module "m.Linear")]))) /\
  from_torch o (JList (JTensor (Some QInt32) None)) = Invalid /\ from_torch o (JTuple [JOther; JClass (Some "custom") true]) = Throws /\
  elements_attr QInt8 = Some (IntT 8 Signed, Int8C) /\
  adjust (Tens (tensor true None None)) (Tens (tensor true (Some [2]) None)) false = Some StaticInfoCast /\ adjust (Atom IntA) (Optional (Atom IntA)) false = Some Derefine /\
  adjust (Optional (Atom IntA)) (Atom IntA) false = Some UncheckedCast /\ adjust (Atom IntA) (Optional (Atom IntA)) true = Some Same /\ adjust (Atom IntA) (Atom StringA) true = None /\
  name_suffix (RegistryModel.txt "aten::add") (RegistryModel.txt "Tensor") = Some (RegistryModel.txt "aten.add.Tensor") /\
  node_location {| stack := Some (["a.py"; "b.py"], [3; 7], ["f"; "g"]); range := None; scope := "net"; operator_name := Some "aten::add" |} =
    Some (Named "net/aten::add" (CallSite (Named "g" (FileLineCol "b.py" 7 0)) (Named "f" (FileLineCol "a.py" 3 0)))).
Proof. cbv zeta. do 10 (split; [reflexivity|]). reflexivity. Qed.
Print Assumptions C119_types.
Print Assumptions C119_type_bounds.
Print Assumptions C119_adjust.
Print Assumptions C119_operations_distinct.
Print Assumptions C119_locations_distinguish.
