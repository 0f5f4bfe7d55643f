(** Importing a TorchDynamo graph keeps its meaning. *)
From Coq Require Import ZArith Bool Ascii String Lia List.
From Verif Require Import Prelude DtypeModel DtypeSpec DtypeProps TypesModel TypesSpec TypesProps TypesPrintProps DynFxModel DynFxSpec.
Import ListNotations.
Open Scope string_scope.
Open Scope list_scope.
Open Scope Z_scope.

(** ** Types *)
Lemma counterpart_tokens t c : counterpart t c -> type_string t = Some (print c).
Proof. induction 1 as [| | | |t u H IH|t u H IH]; cbn [type_string obind print printTensorType value_semantics sizes elt sparsity mnemonic]; try reflexivity; now rewrite IH. Qed.
Lemma counterpart_printable t c : counterpart t c -> all_tensors (printable any_encoding) c.
Proof. induction 1; cbn [all_tensors]; auto. unfold printable, sizes_ok. cbn [sizes elt sparsity]. repeat split; auto; discriminate. Qed.
Lemma counterpart_size t c : counterpart t c -> (tsize c <= length (print c))%nat.
Proof. induction 1; cbn [tsize print length printTensorType sizes elt sparsity]; try lia; cbn [app length]; rewrite app_length; cbn [length]; lia. Qed.
Lemma parsed_counterpart t : forall toks, type_string t = Some toks ->
  forall fuel rest c r, no_less rest -> parse any_encoding fuel (toks ++ rest) = Some (c, r) -> counterpart t c /\ r = rest.
Proof.
  assert (C : forall w u toks, (forall fuel rest c r, no_less rest -> parse any_encoding fuel (toks ++ rest) = Some (c, r) -> counterpart u c /\ r = rest) ->
    forall fuel rest c r, (w = "list" \/ w = "optional") -> parse any_encoding fuel (([Word w; Less] ++ toks ++ [Greater]) ++ rest) = Some (c, r) ->
    exists c', counterpart u c' /\ r = rest /\ c = if String.eqb w "list" then List_ c' else Optional c').
  { intros w u toks IH fuel rest c r Hw H. destruct fuel as [|fuel]; [discriminate|].
    rewrite <- !app_assoc in H. destruct Hw as [-> | ->]; cbn [app parse String.eqb Ascii.eqb Bool.eqb expect is_less obind] in H;
      destruct (parse any_encoding fuel (toks ++ Greater :: rest)) as [[c' r']|] eqn:E; try discriminate;
      (apply IH in E; [|exact I]); destruct E as [E ->]; cbn in H; injection H as <- <-; exists c'; auto. }
  induction t as [e IH| | | | | |e IH| |]; intros toks T fuel rest c r N H; cbn [type_string] in T; try discriminate.
  - destruct (type_string e) as [s|] eqn:E; [|discriminate]. injection T as <-. destruct (C "list" e s (IH s eq_refl) fuel rest c r (or_introl eq_refl) H) as (c' & A & -> & ->).
    split; auto. now constructor.
  - injection T as <-. destruct fuel; [discriminate|]. cbn in H. injection H as <- <-. split; auto. constructor.
  - injection T as <-. destruct fuel; [discriminate|]. cbn in H. injection H as <- <-. split; auto. constructor.
  - injection T as <-. destruct fuel; [discriminate|]. cbn in H. injection H as <- <-. split; auto. constructor.
  - injection T as <-. destruct fuel; [discriminate|]. cbn in H. discriminate.
  - injection T as <-. destruct fuel; [discriminate|]. cbn [app parse String.eqb Ascii.eqb Bool.eqb] in H.
    assert (P : parseTensorType any_encoding true rest = Some ({| value_semantics := true; sizes := None; elt := None; sparsity := None |}, rest))
      by (destruct rest as [|[] ]; try reflexivity; destruct N).
    rewrite P in H. cbn in H. injection H as <- <-. split; auto. constructor.
  - destruct (type_string e) as [s|] eqn:E; [|discriminate]. injection T as <-. destruct (C "optional" e s (IH s eq_refl) fuel rest c r (or_intror eq_refl) H) as (c' & A & -> & ->).
    split; auto. now constructor.
Qed.
(** C78: a JIT type is written as its counterpart in the dialect; types without one are refused. *)
Theorem C78_type_counterparts t c : torch_type_to_mlir_type t = Some c <-> counterpart t c.
Proof.
  unfold torch_type_to_mlir_type, parse_type. split.
  - destruct (type_string t) as [s|] eqn:E; [|discriminate]. cbn [obind]. intros H.
    destruct (parse any_encoding (length s) s) as [[c' [|x r]]|] eqn:P; try discriminate. injection H as ->.
    rewrite <- (app_nil_r s) in P at 2. apply (parsed_counterpart t s E) in P; [tauto|exact I].
  - intros C. rewrite (counterpart_tokens t c C). cbn [obind]. rewrite <- (app_nil_r (print c)) at 2.
    rewrite parse_print; auto; [now apply (counterpart_size t)|now apply (counterpart_printable t)|exact I].
Qed.
(** Strings are written "string", which the dialect does not know: lists of strings cannot be imported. *)
Theorem C78_lists_of_strings_refuted t : optional_of JString t -> torch_type_to_mlir_type (JList t) = None.
Proof.
  intros H. destruct (torch_type_to_mlir_type (JList t)) as [c|] eqn:E; [|reflexivity]. apply C78_type_counterparts in E.
  exfalso. inversion E as [| | | |t0 u K|]; subst. clear E. revert u K. induction H as [|u H IH]; intros c K; inversion K; subst; eauto.
Qed.
Lemma join_print l : Forall (fun d => 0 <= d) l -> join_sizes l = print_sizes l.
Proof.
  induction 1 as [|d l H F IH]; [reflexivity|].
  assert (P : print_size d = Int_ d) by (unfold print_size; destruct (Z.ltb_spec d 0); [lia|reflexivity]).
  destruct l as [|x r]; [cbn [join_sizes print_sizes]; now rewrite P|].
  change (join_sizes (d :: x :: r)) with (Int_ d :: Comma :: join_sizes (x :: r)). change (print_sizes (d :: x :: r)) with (print_size d :: Comma :: print_sizes (x :: r)).
  now rewrite P, IH.
Qed.
Lemma convert_coded d : coded d <-> convert_dtype d <> None.
Proof. unfold coded. destruct d; cbn; split; try congruence; try tauto; intros H; exfalso; repeat (destruct H as [H|H]; [discriminate|]); auto. Qed.
Lemma convert_element d t : convert_dtype d = Some t -> torch_element (Builtin t).
Proof. destruct d; cbn; intros [= <-]; cbn; auto; unfold torch_integer; auto 10; right; split; auto; discriminate. Qed.
Lemma convert_agrees d t : convert_dtype d = Some t -> getTypeForScalarType d = Some t.
Proof. destruct d; cbn; congruence. Qed.
(** C78: a fake tensor has the value tensor type of its sizes and of the compiler's element type for its dtype. *)
Theorem C78_tensor_types f : writable f ->
  exists t, getTypeForScalarType (snd f) = Some t /\
  import_fake_tensor f = Some (Tens {| value_semantics := true; sizes := Some (fst f); elt := Some (Builtin t); sparsity := None |}).
Proof.
  intros [S D]. apply convert_coded in D. unfold import_fake_tensor. destruct (convert_dtype (snd f)) as [t|] eqn:E; [|congruence]. clear D.
  exists t. split; [now apply convert_agrees|]. cbn [obind]. unfold parse_type. set (u := {| value_semantics := true; sizes := Some (fst f); elt := Some (Builtin t); sparsity := None |}).
  assert (T : [Word "vtensor"; Less; LSquare] ++ join_sizes (fst f) ++ [RSquare; Comma; Type_ (Builtin t); Greater] = print (Tens u)).
  { rewrite (join_print _ S). unfold u. cbn [print printTensorType value_semantics sizes elt sparsity app]. rewrite <- app_assoc. reflexivity. }
  rewrite T. rewrite <- (app_nil_r (print (Tens u))) at 2. rewrite parse_print; [reflexivity| | |exact I].
  - cbn. lia.
  - cbn [all_tensors]. unfold printable, sizes_ok, u. cbn [sizes elt sparsity]. split; [intros d [= <-]; now apply (convert_element (snd f))|]. split; [|discriminate].
    eapply Forall_impl; [|exact S]. intros d H. now right.
Qed.
(** Other dtypes are refused. *)
Theorem C78_uncoded_dtypes_refused f : ~ coded (snd f) -> import_fake_tensor f = None.
Proof. intros H. rewrite convert_coded in H. unfold import_fake_tensor. destruct (convert_dtype (snd f)); [elim H; discriminate|reflexivity]. Qed.
(** C78: the codes of dtypes are the compiler's. *)
Theorem C78_dtype_codes d z : DTYPE_TO_INT d = Some z <-> coded d /\ z = code d.
Proof.
  unfold coded. destruct d; cbn; split; intros H; try discriminate;
    try (injection H as <-; split; [tauto|reflexivity]); try (destruct H as [_ ->]; reflexivity);
    destruct H as [H _]; exfalso; repeat (destruct H as [H|H]; [discriminate|]); auto.
Qed.
Theorem C78_memory_format_codes m : MEMORY_FORMAT_TO_INT m = memory_format_code m.
Proof. destruct m; reflexivity. Qed.
Theorem C78_layout_codes l c : layout_code l = Some c -> LAYOUT_TO_INT l = c.
Proof. destruct l; cbn; congruence. Qed.
(** Layouts have distinct codes, from 0 to 5. *)
Theorem C78_layouts_distinct l l' : (LAYOUT_TO_INT l = LAYOUT_TO_INT l' -> l = l') /\ 0 <= LAYOUT_TO_INT l <= 5.
Proof. split; [destruct l, l'; cbn; congruence|destruct l; cbn; lia]. Qed.
(** torch.sparse_csc gets the code the compiler reads as Mkldnn. *)
Theorem C78_sparse_csc_is_mkldnn_refuted : LAYOUT_TO_INT SparseCsc = mkldnn_code.
Proof. reflexivity. Qed.

(** ** Meaning *)
Lemma exec_app sem l1 : forall l2 vals, exec sem (l1 ++ l2) vals = obind (exec sem l1 vals) (exec sem l2).
Proof.
  induction l1 as [|o l1 IH]; intros l2 vals; [reflexivity|]. cbn [app exec]. destruct (mapM (nth_error vals) (o_operands o)) as [xs|]; [|reflexivity]. cbn [obind].
  destruct (results sem (o_kind o) xs) as [rs|]; [|reflexivity]. cbn [obind]. destruct (length rs =? length (o_types o))%nat; cbn [guard obind]; [apply IH|reflexivity].
Qed.
Lemma nth_error_more {A} (l r : list A) i x : nth_error l i = Some x -> nth_error (l ++ r) i = Some x.
Proof. intros H. rewrite nth_error_app1; auto. apply nth_error_Some. congruence. Qed.
Lemma get_cons e n i v m j : get (((n, i), v) :: e) m j = if ((n =? m)%nat && (i =? j))%bool then Some v else get e m j.
Proof. unfold get. cbn [find fst snd]. destruct ((n =? m)%nat && (i =? j))%bool; reflexivity. Qed.
Lemma get_number n m j vs e : forall i, get (number i n vs ++ e) m j =
  if ((n =? m)%nat && (i <=? j) && (j <? i + Z.of_nat (length vs)))%bool then nth_error vs (Z.to_nat (j - i)) else get e m j.
Proof.
  induction vs as [|v vs IH]; intros i; cbn [number app].
  - cbn [length]. replace (j <? i + Z.of_nat 0) with (negb (i <=? j)) by lia. destruct (n =? m)%nat, (i <=? j); reflexivity.
  - rewrite get_cons, IH. cbn [length]. destruct (n =? m)%nat; cbn [andb]; [|reflexivity].
    destruct (Z.eqb_spec i j) as [->|N].
    + destruct (Z.leb_spec j j); [|lia]. destruct (Z.ltb_spec j (j + Z.of_nat (S (length vs)))); [|lia]. cbn [andb]. rewrite Z.sub_diag. reflexivity.
    + destruct (Z.leb_spec i j), (Z.leb_spec (i + 1) j); cbn [andb]; try lia; [|reflexivity].
      destruct (Z.ltb_spec j (i + 1 + Z.of_nat (length vs))), (Z.ltb_spec j (i + Z.of_nat (S (length vs)))); try lia; [|reflexivity].
      replace (Z.to_nat (j - i)) with (S (Z.to_nat (j - (i + 1)))) by lia. reflexivity.
Qed.
Lemma value_of_cons b n v m : value_of ((n, v) :: b) m = if (n =? m)%nat then Some v else value_of b m.
Proof. unfold value_of. cbn [find fst snd]. destruct (n =? m)%nat; reflexivity. Qed.
Lemma meta_found g n : NoDup (map n_id g) -> In n g -> meta_of g (n_id n) = n_meta n.
Proof.
  intros ND I. unfold meta_of. assert (F : find (fun m => (n_id m =? n_id n)%nat) g = Some n); [|now rewrite F].
  induction g as [|m g IH]; [destruct I|]. cbn [find]. cbn [map] in ND. inversion ND as [|x l NI ND']; subst.
  destruct (Nat.eqb_spec (n_id m) (n_id n)) as [E|E].
  - destruct I as [->|I]; [reflexivity|]. elim NI. rewrite E. now apply in_map.
  - destruct I as [->|I]; [congruence|auto].
Qed.

Section Meaning.
  Variable call : string -> string -> list value -> option value.
  Variable index : value -> Z -> option value.
  Variable sem : string -> list value -> option value.
  Hypothesis sem_call : forall ns base overload xs, no_colon ns -> sem (dialect_name ns base overload) xs = call (ns ++ "::" ++ base)%string overload xs.
  Variable g : list node.
  Hypothesis ND : NoDup (map n_id g).
  (** The value table agrees with the bindings. *)
  Definition agrees (e : env) (b : bindings) (vals : list value) : Prop :=
    (forall n i v, get e n i = Some v -> 0 <= i) /\
    forall n w, value_of b n = Some w ->
    (tensor_node g n -> exists i, get e n 0 = Some i /\ nth_error vals i = Some w) /\
    (tuple_node g n -> exists vs, w = VTuple vs /\ forall j, match nth_error vs j with
        | Some v => exists i, get e n (Z.of_nat j) = Some i /\ nth_error vals i = Some v
        | None => True end).
  Lemma agrees_more e b vals r : agrees e b vals -> agrees e b (vals ++ r).
  Proof.
    intros [K H]. split; [exact K|]. intros n w V. destruct (H n w V) as [A B]. split.
    - intros T. destruct (A T) as (i & G & E). exists i. split; auto. now apply nth_error_more.
    - intros T. destruct (B T) as (vs & -> & J). exists vs. split; auto. intros j. specialize (J j). destruct (nth_error vs j); auto.
      destruct J as (i & G & E). exists i. split; auto. now apply nth_error_more.
  Qed.
  (** What importing an argument adds. *)
  Definition adds (s s' : st) (vals : list value) (v : nat) (x : value) : Prop :=
    exists new ext, s_ops s' = s_ops s ++ new /\ exec sem new vals = Some (vals ++ ext) /\ length (vals ++ ext) = s_next s' /\ nth_error (vals ++ ext) v = Some x.
  Lemma adds_constant k t x s vals : length vals = s_next s -> results sem k [] = Some [x] ->
    adds s (snd (emit1 k [] t s)) vals (fst (emit1 k [] t s)) x.
  Proof.
    intros L R. exists [{| o_kind := k; o_operands := []; o_types := [t] |}], [x]. cbn [emit1 emit fst snd s_ops s_next length]. repeat split.
    - cbn [exec o_operands o_kind o_types mapM obind]. rewrite R. reflexivity.
    - rewrite app_length. cbn [length]. lia.
    - rewrite <- L, nth_error_app2, Nat.sub_diag by lia. reflexivity.
  Qed.
  Lemma adds_list t xs ids s vals : length vals = s_next s -> mapM (nth_error vals) ids = Some xs ->
    adds s (snd (emit1 KList ids t s)) vals (fst (emit1 KList ids t s)) (VList xs).
  Proof.
    intros L R. exists [{| o_kind := KList; o_operands := ids; o_types := [t] |}], [VList xs]. cbn [emit1 emit fst snd s_ops s_next length]. repeat split.
    - cbn [exec o_operands o_kind o_types]. rewrite R. reflexivity.
    - rewrite app_length. cbn [length]. lia.
    - rewrite <- L, nth_error_app2, Nat.sub_diag by lia. reflexivity.
  Qed.
  Definition import_list (e : env) (u : ty) : list arg -> st -> option (list nat * st) :=
    fix go l s := match l with
    | [] => Some ([], s)
    | b :: r => do (v, s) <- import_argument g e b (Some (EMlir u)) s; do (vs, s) <- go r s; Some (v :: vs, s)
    end.
  Lemma import_list_cons e u a l s : import_list e u (a :: l) s =
    do (v, s) <- import_argument g e a (Some (EMlir u)) s; do (vs, s) <- import_list e u l s; Some (v :: vs, s).
  Proof. reflexivity. Qed.
  Lemma mapM_more (vals ext : list value) ids xs : mapM (nth_error vals) ids = Some xs -> mapM (nth_error (vals ++ ext)) ids = Some xs.
  Proof.
    revert xs. induction ids as [|i ids IH]; intros xs H; [exact H|]. cbn [mapM] in *. destruct (nth_error vals i) as [x|] eqn:E; [|discriminate].
    rewrite (nth_error_more vals ext i x E). cbn [obind] in *. destruct (mapM (nth_error vals) ids) as [ys|]; [|discriminate]. now rewrite (IH ys eq_refl).
  Qed.
  Lemma import_argument_ok e b : forall a ex s v s' vals x, import_argument g e a ex s = Some (v, s') -> uses (tensor_node g) plain a ->
    means b a x -> length vals = s_next s -> agrees e b vals -> adds s s' vals v x.
  Proof.
    fix IH 1. intros a ex s v s' vals x H U M L A.
    assert (CONST : forall k t, Some (v, s') = Some (emit1 k [] t s) -> results sem k [] = Some [x] -> adds s s' vals v x).
    { intros k t E R. injection E as -> ->. now apply adds_constant. }
    destruct a as [n| |bb|z|f|w|d|k i|m|l|l|l|]; cbn [import_argument] in H.
    - destruct (get e n 0) as [v'|] eqn:G; [|discriminate]. injection H as -> <-. inversion M as [n0 w V| | | | | | | | | |]; subst.
      inversion U as [n1 T| |? N]; subst; [|now elim (N n)]. destruct (proj2 A n x V) as [B _]. destruct (B T) as (i & G' & E). rewrite G' in G. injection G as ->.
      exists [], []. rewrite !app_nil_r. auto.
    - destruct ex; [|discriminate]. inversion M; subst. symmetry in H. now apply CONST in H.
    - destruct ex; [|discriminate]. inversion M; subst. symmetry in H. now apply CONST in H.
    - destruct ex; [|discriminate]. inversion M; subst. symmetry in H. now apply CONST in H.
    - destruct ex; [|discriminate]. inversion M; subst. symmetry in H. now apply CONST in H.
    - destruct ex; [|discriminate]. inversion M; subst. symmetry in H. now apply CONST in H.
    - destruct ex as [ex|]; [|discriminate]. cbn [obind] in H. destruct (is_int ex); [|discriminate]. cbn [guard obind] in H.
      destruct (DTYPE_TO_INT d) as [z|] eqn:D; [|discriminate]. apply C78_dtype_codes in D. destruct D as [_ ->]. inversion M; subst. symmetry in H. now apply CONST in H.
    - destruct ex; [|discriminate]. inversion M; subst. inversion U as [| |? ? ? P]; subst. destruct i; [destruct P|]. symmetry in H. now apply CONST in H.
    - destruct ex as [ex|]; [|discriminate]. cbn [obind] in H. destruct (is_int ex); [|discriminate]. inversion M; subst. symmetry in H. now apply CONST in H.
    - destruct ex as [ex|]; [|discriminate]. cbn [obind] in H. destruct (is_int ex); [|discriminate]. inversion M as [| | | | | | | | |? c C|]; subst. symmetry in H. apply CONST in H; auto.
      cbn [results]. rewrite (C78_layout_codes l c C). reflexivity.
    - destruct ex as [ex|]; [|discriminate]. cbn [obind] in H. destruct (list_element ex) as [t|]; [|discriminate]. cbn [obind] in H.
      inversion M as [| | | | | | | | | |? xs F]; subst. inversion U as [|? UF|? ? N]; subst; [|now elim (N l)].
      assert (LIST : forall u l s els s' vals xs, import_list e u l s = Some (els, s') -> Forall (uses (tensor_node g) plain) l -> Forall2 (means b) l xs ->
        length vals = s_next s -> agrees e b vals ->
        (forall a, In a l -> forall ex s v s' vals x, import_argument g e a ex s = Some (v, s') -> uses (tensor_node g) plain a -> means b a x -> length vals = s_next s -> agrees e b vals -> adds s s' vals v x) ->
        exists new ext, s_ops s' = s_ops s ++ new /\ exec sem new vals = Some (vals ++ ext) /\ length (vals ++ ext) = s_next s' /\ mapM (nth_error (vals ++ ext)) els = Some xs).
      { clear. intros u l. induction l as [|a l IHl]; intros s els s' vals xs H U M L A IH; [|rewrite import_list_cons in H].
        - injection H as <- <-. inversion M; subst. exists [], []. rewrite !app_nil_r. auto.
        - destruct (import_argument g e a (Some (EMlir u)) s) as [[v s1]|] eqn:E; [|discriminate]. cbn [obind] in H.
          destruct (import_list e u l s1) as [[vs s2]|] eqn:E2; [|discriminate]. cbn [obind] in H. injection H as <- <-.
          inversion M as [|? x ? xs' M1 M2]; subst. inversion U as [|? ? U1 U2]; subst.
          destruct (IH a (or_introl eq_refl) _ _ _ _ vals x E U1 M1 L A) as (n1 & e1 & O1 & X1 & L1 & N1).
          destruct (IHl s1 vs s2 (vals ++ e1) xs' E2 U2 M2 L1 (agrees_more _ _ _ e1 A) (fun a I => IH a (or_intror I))) as (n2 & e2 & O2 & X2 & L2 & N2).
          exists (n1 ++ n2), (e1 ++ e2). rewrite (app_assoc vals). repeat split.
          + rewrite O2, O1. now rewrite app_assoc.
          + rewrite exec_app, X1. exact X2.
          + exact L2.
          + cbn [mapM]. rewrite (nth_error_more _ e2 _ _ N1). cbn [obind]. rewrite N2. reflexivity. }
      assert (REC : forall a, In a l -> forall ex s v s' vals x, import_argument g e a ex s = Some (v, s') -> uses (tensor_node g) plain a -> means b a x -> length vals = s_next s -> agrees e b vals -> adds s s' vals v x).
      { clear - IH. induction l as [|a l IHl]; intros a' I; [destruct I|]. destruct I as [<- |I]; [exact (IH a)|exact (IHl a' I)]. }
      assert (FIN : forall els s1 new ext, s_ops s1 = s_ops s ++ new -> exec sem new vals = Some (vals ++ ext) -> length (vals ++ ext) = s_next s1 ->
        mapM (nth_error (vals ++ ext)) els = Some xs ->
        (do u <- torch_type_to_mlir_type (JList t); Some (emit1 KList els u s1)) = Some (v, s') -> adds s s' vals v (VList xs)).
      { clear - L. intros els s1 new ext O X L1 N H. destruct (torch_type_to_mlir_type (JList t)) as [u|]; [|discriminate]. cbn [obind] in H.
        assert (P : adds s1 s' (vals ++ ext) v (VList xs)).
        { assert (P := adds_list u xs els s1 (vals ++ ext) L1 N). injection H as E1 E2. now rewrite <- E1, <- E2. }
        destruct P as (n2 & e2 & O2 & X2 & L2 & N2). exists (new ++ n2), (ext ++ e2). rewrite (app_assoc vals). repeat split; auto.
        - rewrite O2, O. now rewrite app_assoc.
        - rewrite exec_app, X. exact X2. }
      assert (OTHER : forall u, (do (els, s') <- import_list e u l s; do u <- torch_type_to_mlir_type (JList t); Some (emit1 KList els u s')) = Some (v, s') -> adds s s' vals v (VList xs)).
      { intros u H'. destruct (import_list e u l s) as [[els s1]|] eqn:E; [|discriminate]. cbn [obind] in H'.
        destruct (LIST u l s els s1 vals xs E UF F L A REC) as (new & ext & O & X & L1 & N). exact (FIN els s1 new ext O X L1 N H'). }
      destruct t as [t0| | | | | |t0| |].
      6:{ destruct (mapM (tensor_element g e) l) as [els|] eqn:E; [|discriminate]. cbn [obind] in H.
          refine (FIN els s [] [] _ _ _ _ H); rewrite ?app_nil_r; auto.
          clear - E UF F A. revert els xs E F UF. induction l as [|a l IHl]; intros els xs E F UF; cbn [mapM] in E.
          - injection E as <-. inversion F; subst. reflexivity.
          - destruct (tensor_element g e a) as [i|] eqn:T; [|discriminate]. cbn [obind] in E. destruct (mapM (tensor_element g e) l) as [is|]; [|discriminate]. cbn [obind] in E. injection E as <-.
            inversion F as [|? x ? xs' M1 M2]; subst. inversion UF as [|? ? U1 U2]; subst. cbn [mapM].
            destruct a as [n| | | | | | | | | | | |]; try discriminate. cbn [tensor_element] in T. destruct (is_valid_meta_val (meta_of g n)); [|discriminate]. cbn [guard obind] in T.
            inversion M1 as [n0 w V| | | | | | | | | |]; subst. inversion U1 as [n1 Tn| |? N]; subst; [|now elim (N n)].
            destruct (proj2 A n x V) as [B _]. destruct (B Tn) as (i' & G' & E). rewrite G' in T. injection T as ->. rewrite E. cbn [obind]. now rewrite (IHl is xs' eq_refl M2 U2). }
      all: match type of H with context [torch_type_to_mlir_type ?t] => destruct (torch_type_to_mlir_type t) as [u|]; [|discriminate] end; exact (OTHER u H).
    - destruct ex; discriminate.
    - destruct ex; discriminate.
  Qed.
  Lemma import_arguments_ok e b : forall l s vs s' vals xs, import_arguments g e l s = Some (vs, s') ->
    Forall (fun p => uses (tensor_node g) plain (fst p)) l -> Forall2 (fun p => means b (fst p)) l xs -> length vals = s_next s -> agrees e b vals ->
    exists new ext, s_ops s' = s_ops s ++ new /\ exec sem new vals = Some (vals ++ ext) /\ length (vals ++ ext) = s_next s' /\ mapM (nth_error (vals ++ ext)) vs = Some xs.
  Proof.
    induction l as [|[a ex] l IHl]; intros s els s' vals xs H U M L A; cbn [import_arguments] in H.
    - injection H as <- <-. inversion M; subst. exists [], []. rewrite !app_nil_r. auto.
    - destruct (import_argument g e a ex s) as [[v s1]|] eqn:E; [|discriminate]. cbn [obind] in H.
      destruct (import_arguments g e l s1) as [[vs s2]|] eqn:E2; [|discriminate]. cbn [obind] in H. injection H as <- <-.
      inversion M as [|? x ? xs' M1 M2]; subst. inversion U as [|? ? U1 U2]; subst. cbn [fst] in *.
      destruct (import_argument_ok e b a ex s v s1 vals x E U1 M1 L A) as (n1 & e1 & O1 & X1 & L1 & N1).
      destruct (IHl s1 vs s2 (vals ++ e1) xs' E2 U2 M2 L1 (agrees_more _ _ _ e1 A)) as (n2 & e2 & O2 & X2 & L2 & N2).
      exists (n1 ++ n2), (e1 ++ e2). rewrite (app_assoc vals). repeat split.
      + rewrite O2, O1. now rewrite app_assoc.
      + rewrite exec_app, X1. exact X2.
      + exact L2.
      + cbn [mapM]. rewrite (nth_error_more _ e2 _ _ N1). cbn [obind]. rewrite N2. reflexivity.
  Qed.
  (** Operator names. *)
  Lemma partition_qualified ns base : no_colon ns -> partition (ns ++ "::" ++ base) = (ns, base).
  Proof.
    unfold no_colon. induction ns as [|c ns IH]; intros N; [reflexivity|]. cbn [list_ascii_of_string In] in N.
    assert (C : c <> ":"%char) by (intros ->; tauto). change (partition (String c (ns ++ "::" ++ base)) = (String c ns, base)).
    assert (P : partition (String c (ns ++ "::" ++ base)) = let '(a, b) := partition (ns ++ "::" ++ base) in (String c a, b)).
    { destruct c as [[] [] [] [] [] [] [] []]; try reflexivity. now elim C. }
    rewrite P, IH by tauto. reflexivity.
  Qed.
  Lemma op_name sc : qualified sc -> forall xs, sem (mlir_op_name sc) xs = call (s_name sc) (s_overload sc) xs.
  Proof.
    intros (ns & base & E & N) xs. unfold mlir_op_name. rewrite E, (partition_qualified ns base N), <- (sem_call ns base (s_overload sc) xs N). unfold dialect_name.
    assert (Z : forall s, (s ++ "")%string = s) by (induction s; cbn; congruence).
    assert (Y : forall a b c, ((a ++ b) ++ c)%string = (a ++ b ++ c)%string) by (induction a; cbn; intros; congruence).
    destruct (String.eqb (s_overload sc) ""); [now rewrite Z|now rewrite !Y].
  Qed.
  Lemma operands_actual n sc : keywords_ok n -> n_op n = CallOverload sc ->
    forall args, (forall i p, nth_error (s_params sc) i = Some p -> exists a, nth_error args i = Some a /\ actual n i p = Some a) ->
    length args = length (s_params sc) -> map fst (operands_for n 0 (s_params sc)) = args.
  Proof.
    intros K O args.
    assert (G : forall ps i args, (forall p, In p ps -> In p (s_params sc)) ->
      (forall j p, nth_error ps j = Some p -> exists a, nth_error args j = Some a /\ actual n (i + j) p = Some a) -> length args = length ps ->
      map fst (operands_for n i ps) = args).
    { clear args. induction ps as [|p ps IH]; intros i args S H L; [destruct args; [reflexivity|discriminate]|].
      destruct args as [|a args]; [discriminate|]. cbn [operands_for map fst]. f_equal.
      - destruct (H 0%nat p eq_refl) as (a' & [= <-] & A). rewrite Nat.add_0_r in A. unfold operand_for, actual, find_kwarg in *.
        destruct (find (fun k => String.eqb (fst k) (p_name p)) (n_kwargs n)) as [k|] eqn:F.
        + destruct (find_some _ _ F) as [I E]. apply String.eqb_eq in E. rewrite (K sc k O I p (S p (or_introl eq_refl)) (eq_sym E)). cbn [option_map]. now injection A.
        + cbn [option_map]. destruct (p_kwarg_only p); destruct (nth_error (n_args n) i); try (now injection A); now rewrite A.
      - apply IH.
        + intros q Q. apply S. now right.
        + intros j q Q. destruct (H (1 + j)%nat q Q) as (a' & E & B). exists a'. split; auto. now replace (Datatypes.S i + j)%nat with (i + (1 + j))%nat by lia.
        + now injection L. }
    intros H L. apply (G (s_params sc) 0%nat args); auto.
  Qed.
  Lemma operands_length n ps : forall i, length (operands_for n i ps) = length ps.
  Proof. induction ps as [|p ps IH]; intros i; cbn; auto. Qed.

  Variable inputs : list value.
  Variable registered : string -> bool.
  Definition inv (x : state) (b : bindings) (xs : list value) : Prop :=
    exists vals, exec sem (s_ops (i_st x)) inputs = Some vals /\ length vals = s_next (i_st x) /\
      (forall i v, nth_error inputs i = Some v -> nth_error vals i = Some v) /\ skipn (i_seen x) inputs = xs /\ agrees (i_env x) b vals /\ i_returns x = [].
  (** A new binding of one value. *)
  Lemma agrees_one e b vals n v i : agrees e b vals -> In n g -> tensor_node g (n_id n) -> nth_error vals i = Some v ->
    agrees (((n_id n, 0), i) :: e) ((n_id n, v) :: b) vals.
  Proof.
    intros [K A] I T N. split.
    - intros m j w G. rewrite get_cons in G. destruct ((n_id n =? m)%nat && (0 =? j))%bool eqn:E; [lia|eauto].
    - intros m w V. rewrite value_of_cons in V. destruct (Nat.eqb_spec (n_id n) m) as [<- |D].
      + injection V as <-. split.
        * intros _. exists i. rewrite get_cons, Nat.eqb_refl. auto.
        * intros [l M]. destruct T as [f T]. congruence.
      + destruct (A m w V) as [B C]. split.
        * intros Tm. destruct (B Tm) as (i' & G & E). exists i'. rewrite get_cons. destruct (Nat.eqb_spec (n_id n) m); [congruence|]. auto.
        * intros Tm. destruct (C Tm) as (vs & -> & J). exists vs. split; auto. intros j. specialize (J j). destruct (nth_error vs j); auto.
          destruct J as (i' & G & E). exists i'. rewrite get_cons. destruct (Nat.eqb_spec (n_id n) m); [congruence|]. auto.
  Qed.
  Lemma seq_nth i : forall n k, (i < n)%nat -> nth_error (seq k n) i = Some (k + i)%nat.
  Proof. induction i as [|i IH]; intros [|n] k H; try lia; cbn [seq nth_error]; [f_equal; lia|]. rewrite IH by lia. f_equal. lia. Qed.
  Lemma skipn_cons {A} (l : list A) : forall k y ys, skipn k l = y :: ys -> nth_error l k = Some y /\ skipn (S k) l = ys.
  Proof. induction l as [|z l IHl]; intros k y ys E; [destruct k; discriminate|]. destruct k as [|k]; [injection E as -> ->; auto|]. cbn [skipn nth_error] in *. now apply IHl. Qed.
  Lemma step_ok n g' x x' b xs out : In n g -> ordinary_node g n -> n_op n <> Output -> (forall sc, n_op n = CallOverload sc -> qualified sc) ->
    import_node registered g (length inputs) x n = Some x' -> inv x b xs -> runs call index (n :: g') xs b out ->
    exists b' xs', inv x' b' xs' /\ runs call index g' xs' b' out.
  Proof.
    intros I [KW ON] NO Q H (vals & X & L & IN & SK & A & R) RUN. unfold import_node in H. revert SK.
    inversion RUN as [n0 g0 y ys b0 o0 O S RUN'|n0 sc g0 ys b0 args vs v o0 O ACT LA F C M RUN'|n0 g0 ys b0 m i rest vs v o0 O AR V P M RUN'|n0 g0 ys b0 m i rest w v o0 O AR V S IX M RUN'|n0 l rest b0 o0 O]; subst; intros SK.
    - rewrite O in H, ON. destruct (Nat.ltb_spec (i_seen x) (length inputs)) as [LT|]; [|discriminate]. cbn [guard obind] in H. injection H as <-.
      destruct (skipn_cons _ _ _ _ SK) as [NY SY].
      exists ((n_id n, y) :: b), ys. split; [|exact RUN']. exists vals. cbn [i_st i_env i_seen i_returns]. split; [|split; [|split; [|split; [|split]]]]; auto.
      apply (agrees_one _ _ _ n y (i_seen x) A I ON). auto.
    - rewrite O in H, ON. unfold import_op_overload_call in H. destruct (registered (mlir_op_name sc)); [|discriminate]. cbn [guard obind] in H.
      destruct (types_for_node (n_meta n)) as [ts|] eqn:TY; [|discriminate]. cbn [obind] in H.
      destruct (import_arguments g (i_env x) (operands_for n 0 (s_params sc)) (i_st x)) as [[ids s1]|] eqn:IA; [|discriminate]. cbn [obind emit] in H. injection H as <-.
      assert (OP := operands_actual n sc KW O args ACT LA).
      assert (U : Forall (fun p => uses (tensor_node g) plain (fst p)) (operands_for n 0 (s_params sc))).
      { apply Forall_forall. intros p Ip. apply (in_map fst) in Ip. rewrite OP in Ip. apply In_nth_error in Ip. destruct Ip as (i & E).
        assert (LT : (i < length (s_params sc))%nat) by (rewrite <- LA; apply nth_error_Some; congruence).
        destruct (nth_error (s_params sc) i) as [q|] eqn:Eq; [|apply nth_error_None in Eq; lia]. destruct (ACT i q Eq) as (a & Ea & Ac). rewrite E in Ea. injection Ea as <-.
        exact (ON i q (fst p) Eq Ac). }
      assert (F' : Forall2 (fun p => means b (fst p)) (operands_for n 0 (s_params sc)) vs).
      { rewrite <- OP in F. clear - F. remember (map fst (operands_for n 0 (s_params sc))) as l eqn:E. revert E. generalize (operands_for n 0 (s_params sc)).
        induction F as [|a y l' l'' H F IHF]; intros l0 E; destruct l0; try discriminate; constructor; injection E as -> ->; auto. }
      destruct (import_arguments_ok (i_env x) b _ _ _ _ vals vs IA U F' L A) as (new & ext & O1 & X1 & L1 & N1).
      assert (LEN : length (components v) = length ts /\ matches (n_meta n) v).
      { split; auto. unfold types_for_node in TY. unfold matches in M. destruct (n_meta n) as [[f|l|]|]; try destruct M.
        - destruct (import_fake_tensor f); [|discriminate]. injection TY as <-. destruct v; try reflexivity. destruct M.
        - destruct H as (-> & E & _). cbn [components]. rewrite E. symmetry. now apply mapM_length in TY. }
      destruct LEN as [LEN _].
      exists ((n_id n, v) :: b), xs. split; [|exact RUN']. exists ((vals ++ ext) ++ components v). cbn [i_st i_env i_seen i_returns s_ops s_next]. split; [|split; [|split; [|split; [|split]]]]; auto.
      + rewrite O1, exec_app. rewrite exec_app, X. cbn [obind]. rewrite X1. cbn [obind exec o_operands o_kind o_types]. rewrite N1. cbn [obind results].
        rewrite (op_name sc (Q sc O)), C. cbn [option_map obind]. rewrite LEN, Nat.eqb_refl. reflexivity.
      + rewrite app_length, L1, LEN. reflexivity.
      + intros i y Y. now do 2 apply nth_error_more; auto.
      + destruct (agrees_more _ _ _ ext A) as [K A']. split.
        * intros m j w. rewrite get_number. destruct ((n_id n =? m)%nat && (0 <=? j) && (j <? 0 + Z.of_nat (length (seq (s_next s1) (length ts)))))%bool eqn:E; [lia|eauto].
        * intros m w V. rewrite value_of_cons in V. destruct (Nat.eqb_spec (n_id n) m) as [<- |D].
          -- injection V as <-. pose proof (meta_found g n ND I) as MF.
             assert (G : forall j c, nth_error (components v) j = Some c ->
               exists i, get (number 0 (n_id n) (seq (s_next s1) (length ts)) ++ i_env x) (n_id n) (Z.of_nat j) = Some i /\ nth_error ((vals ++ ext) ++ components v) i = Some c).
             { intros j c Cj. assert (LT : (j < length ts)%nat) by (rewrite <- LEN; apply nth_error_Some; congruence).
               exists (s_next s1 + j)%nat. rewrite get_number, Nat.eqb_refl, seq_length. destruct (Z.leb_spec 0 (Z.of_nat j)); [|lia]. destruct (Z.ltb_spec (Z.of_nat j) (0 + Z.of_nat (length ts))); [|lia].
               cbn [andb]. replace (Z.to_nat (Z.of_nat j - 0)) with j by lia. split; [now apply seq_nth|]. rewrite nth_error_app2 by lia. rewrite L1. now replace (s_next s1 + j - s_next s1)%nat with j by lia. }
             split; intros [f T]; rewrite MF in T; rewrite T in M; cbn [matches] in M.
             ++ change 0 with (Z.of_nat 0). apply G. destruct v; try reflexivity. destruct M.
             ++ destruct M as (vs' & -> & _ & _). exists vs'. split; auto. intros j. destruct (nth_error vs' j) eqn:E; auto.
          -- destruct (A' m w V) as [B' C']. split; intros Tm.
             ++ destruct (B' Tm) as (i & G & E). exists i. rewrite get_number. destruct (Nat.eqb_spec (n_id n) m); [congruence|]. cbn [andb]. split; auto. now apply nth_error_more.
             ++ destruct (C' Tm) as (vs' & -> & J). exists vs'. split; auto. intros j. specialize (J j). destruct (nth_error vs' j); auto.
                destruct J as (i & G & E). exists i. rewrite get_number. destruct (Nat.eqb_spec (n_id n) m); [congruence|]. cbn [andb]. split; auto. now apply nth_error_more.
    - rewrite O, AR in H. rewrite O in ON. destruct ON as [T TU]. specialize (TU _ _ _ AR). destruct (get (i_env x) m i) as [id|] eqn:G; [|discriminate]. cbn [obind] in H. injection H as <-.
      destruct (proj2 A m _ V) as [_ B]. destruct (B TU) as (vs' & [= <-] & J). pose proof (proj1 A m i id G) as POS.
      exists ((n_id n, v) :: b), xs. split; [|exact RUN']. exists vals. cbn [i_st i_env i_seen i_returns]. split; [|split; [|split; [|split; [|split]]]]; auto.
      apply (agrees_one _ _ _ n v id A I T). unfold pyidx in P. destruct (Z.ltb_spec i 0); [lia|]. destruct (Z.ltb_spec i 0); [lia|].
      specialize (J (Z.to_nat i)). rewrite P in J. destruct J as (i' & G' & E). rewrite Z2Nat.id in G' by lia. congruence.
    - rewrite O in ON. destruct ON as [T TU]. destruct (proj2 A m _ V) as [_ B]. destruct (B (TU _ _ _ AR)) as (vs & -> & _). destruct S.
    - congruence.
  Qed.
  Lemma suffix_ok g' : forall x x' b xs out, (forall n, In n g' -> In n g) -> Forall (ordinary_node g) g -> (forall n sc, In n g -> n_op n = CallOverload sc -> qualified sc) ->
    foldM (import_node registered g (length inputs)) g' x = Some x' -> inv x b xs -> runs call index g' xs b out ->
    exists vals ids, exec sem (s_ops (i_st x')) inputs = Some vals /\ i_returns x' = [ids] /\ mapM (nth_error vals) ids = Some out.
  Proof.
    induction g' as [|n g' IH]; intros x x' b xs out S ON Q H IV RUN; [inversion RUN|]. cbn [foldM] in H.
    destruct (import_node registered g (length inputs) x n) as [x1|] eqn:E; [|discriminate]. cbn [obind] in H.
    assert (I : In n g) by (apply S; now left). pose proof (proj1 (Forall_forall _ _) ON n I) as On.
    assert (D : n_op n = Output \/ n_op n <> Output) by (destruct (n_op n); auto; right; discriminate).
    destruct D as [O|NO].
    - destruct IV as (vals & X & L & IN & SK & A & R). inversion RUN; subst; try congruence. cbn [foldM] in H. injection H as <-.
      destruct On as [_ On]. unfold import_node in E. rewrite O in E, On.
      assert (OA : output_args n = Some l) by (unfold output_args; match goal with K : _ \/ _ |- _ => destruct K as [-> | ->]; reflexivity end).
      rewrite OA in E. cbn [obind] in E. destruct (import_arguments g (i_env x) (map (fun a => (a, None)) l) (i_st x)) as [[ids s1]|] eqn:IA; [|discriminate]. cbn [obind] in E. injection E as <-.
      assert (U : Forall (fun p => uses (tensor_node g) plain (fst p)) (map (fun a => (a, @None expected)) l)).
      { specialize (On l OA). clear - On. induction On; constructor; auto. }
      assert (F : Forall2 (fun p => means b (fst p)) (map (fun a => (a, @None expected)) l) out).
      { match goal with K : Forall2 (means b) l out |- _ => clear - K; induction K; constructor; auto end. }
      destruct (import_arguments_ok (i_env x) b _ _ _ _ vals out IA U F L A) as (new & ext & O1 & X1 & L1 & N1).
      exists (vals ++ ext), ids. cbn [i_st i_returns]. rewrite O1, exec_app, X, R. auto.
    - destruct (step_ok n g' x x1 b xs out I On NO (fun sc => Q n sc I) E IV RUN) as (b' & xs' & IV' & RUN').
      apply (IH x1 x' b' xs' out); auto. intros m Im. apply S. now right.
  Qed.
End Meaning.
Definition placeholders (g : list node) : list node := filter (fun n => match n_op n with Placeholder => true | _ => false end) g.
Lemma runs_inputs call index g xs b out : runs call index g xs b out -> length xs = length (placeholders g).
Proof. unfold placeholders. induction 1 as [n ? ? ? ? ? O|n sc ? ? ? ? ? ? ? O|n ? ? ? ? ? ? ? ? ? O|n ? ? ? ? ? ? ? ? ? O|n ? ? ? ? O]; cbn [filter]; rewrite O; cbn [length]; auto. Qed.
(** C77: the imported function computes what the graph computes, for every graph whose keyword arguments are keyword-only, whose
    multi-result nodes are only used by getitem and whose device arguments carry no index. *)
Theorem C77_meaning registered g name f call index sem xs out :
  import_fx_graph_as_func registered g name = Some f ->
  ordinary_graph g -> (forall n sc, In n g -> n_op n = CallOverload sc -> qualified sc) ->
  (forall ns base overload ys, no_colon ns -> sem (dialect_name ns base overload) ys = call (ns ++ "::" ++ base)%string overload ys) ->
  runs call index g xs [] out -> invoke sem f xs = Some out.
Proof.
  intros H [ND ON] Q SC RUN. unfold import_fx_graph_as_func in H. destruct (verify_graph g); [|discriminate]. cbn [guard obind] in H.
  destruct (input_types g) as [ins|] eqn:EI; [|discriminate]. cbn [obind] in H. destruct (result_types g g None) as [outs|]; [|discriminate]. cbn [obind] in H.
  destruct (foldM (import_node registered g (length ins)) g _) as [x|] eqn:F; [|discriminate]. cbn [obind] in H. injection H as <-.
  assert (LI : length xs = length ins).
  { rewrite (runs_inputs _ _ _ _ _ _ RUN). unfold input_types in EI. symmetry. apply mapM_length in EI. exact EI. }
  rewrite <- LI in F.
  destruct (suffix_ok call index sem SC g ND xs registered g _ _ [] xs out (fun n I => I) ON Q F) as (vals & ids & X & R & M); auto.
  { exists xs. cbn. repeat split; auto; try (intros; discriminate). }
  unfold invoke. cbn [f_inputs f_ops f_returns]. rewrite LI, Nat.eqb_refl, R. cbn [guard obind]. rewrite X. exact M.
Qed.

(** C77: the signature of the function: the types of the first (only) values traced for the placeholders and the outputs. *)
Lemma writable_type f t : import_fake_tensor f = Some t -> Forall (fun d => 0 <= d) (fst f) -> tensor_type f t.
Proof.
  intros H W. assert (C : coded (snd f)) by (rewrite convert_coded; unfold import_fake_tensor in H; destruct (convert_dtype (snd f)); [discriminate|discriminate H]).
  destruct (C78_tensor_types f (conj W C)) as (d & E & T). rewrite T in H. injection H as <-. exists d. auto.
Qed.
Definition sized (n : node) : Prop := Forall (fun f : fake => Forall (fun d => 0 <= d) (fst f)) (fakes (n_meta n)).
Lemma first_type_ok m t : first_type m = Some t -> Forall (fun f : fake => Forall (fun d => 0 <= d) (fst f)) (fakes m) -> exists f, first_fake m f /\ tensor_type f t.
Proof.
  unfold first_type, types_for_node, first_fake. intros H S. destruct m as [[f|l|]|]; try discriminate; cbn [fakes] in *.
  - destruct (import_fake_tensor f) as [u|] eqn:E; [|discriminate]. injection H as <-. exists f. split; [now exists []|]. apply writable_type; auto. now inversion S.
  - destruct l as [|f l]; [discriminate|]. cbn [mapM] in H. destruct (import_fake_tensor f) as [u|] eqn:E; [|discriminate]. cbn [obind] in H.
    destruct (mapM import_fake_tensor l); [|discriminate]. cbn in H. injection H as <-. exists f. split; [now exists l|]. apply writable_type; auto. now inversion S.
Qed.
Theorem C77_signature registered g0 o name f :
  import_fx_graph_as_func registered (g0 ++ [o]) name = Some f -> n_op o = Output -> NoDup (map n_id (g0 ++ [o])) -> Forall sized (g0 ++ [o]) ->
  f_name f = name /\
  Forall2 (fun n t => exists k, first_fake (n_meta n) k /\ tensor_type k t) (placeholders (g0 ++ [o])) (f_inputs f) /\
  exists l rest, (n_args o = AList l :: rest \/ n_args o = ATuple l :: rest) /\
  Forall2 (fun a t => exists n k, a = ANode (n_id n) /\ In n (g0 ++ [o]) /\ first_fake (n_meta n) k /\ tensor_type k t) l (f_results f).
Proof.
  intros H O ND S. remember (g0 ++ [o]) as g eqn:G. unfold import_fx_graph_as_func in H. destruct (verify_graph g); [|discriminate]. cbn [guard obind] in H.
  destruct (input_types g) as [ins|] eqn:EI; [|discriminate]. cbn [obind] in H. destruct (result_types g g None) as [outs|] eqn:EO; [|discriminate]. cbn [obind] in H.
  destruct (foldM (import_node registered g (length ins)) g _) as [x|] eqn:F; [|discriminate]. cbn [obind] in H. injection H as <-. cbn [f_name f_inputs f_results].
  split; [reflexivity|]. split.
  - unfold input_types in EI. apply mapM_Forall2 in EI. fold (placeholders g) in EI.
    assert (S' : Forall sized (placeholders g)) by (apply Forall_forall; intros n I; apply filter_In in I; exact (proj1 (Forall_forall _ _) S n (proj1 I))).
    clear - EI S'. induction EI; inversion S'; subst; constructor; auto. now apply first_type_ok.
  - assert (R : forall g' last, result_types g (g' ++ [o]) last = Some outs -> result_types_of g o = Some outs).
    { induction g' as [|n g' IH]; intros last E; cbn [app result_types] in E.
      - rewrite O in E. destruct (result_types_of g o); [|discriminate]. exact E.
      - destruct (n_op n); try exact (IH _ E). destruct (result_types_of g n); [|discriminate]. exact (IH _ E). }
    pose proof EO as EO'. rewrite G in EO' at 2. apply R in EO'. unfold result_types_of, output_args in EO'.
    assert (P : exists l rest, (n_args o = AList l :: rest \/ n_args o = ATuple l :: rest) /\ mapM (fun a => match a with ANode i => first_type (meta_of g i) | _ => None end) l = Some outs).
    { destruct (n_args o) as [|[] rest]; try discriminate; cbn [obind] in EO'; eauto 6. }
    destruct P as (l & rest & P & M). exists l, rest. split; auto. apply mapM_Forall2 in M. clear - M S ND. induction M as [|a t l ts E M IH]; constructor; auto.
    destruct a as [i| | | | | | | | | | | |]; try discriminate. unfold meta_of in E. destruct (find (fun n => (n_id n =? i)%nat) g) as [n|] eqn:FN; [|discriminate]. cbn [obind] in E.
    destruct (find_some _ _ FN) as [I EQ]. apply Nat.eqb_eq in EQ. subst i. destruct (first_type_ok _ _ E (proj1 (Forall_forall _ _) S n I)) as (k & K1 & K2). exists n, k. auto.
Qed.

(** ** Which graphs are imported *)
Lemma traced_valid n : is_valid_meta_val (n_meta n) = true <-> traced n.
Proof.
  unfold traced. destruct (n_meta n) as [[f|l|]|]; cbn; split; intros H; try discriminate; try reflexivity.
  - exists (MTensor f). split; [reflexivity|discriminate].
  - exists (MList l). split; [reflexivity|discriminate].
  - destruct H as (m & [= <-] & H). now elim H.
  - destruct H as (m & H & _). discriminate.
Qed.
Lemma forallb_skipn {A} (f : A -> bool) l : forall k, forallb f (skipn k l) = true <-> (forall i x, (k <= i)%nat -> nth_error l i = Some x -> f x = true).
Proof.
  induction l as [|y l IH]; intros k.
  - rewrite skipn_nil. cbn. split; [|reflexivity]. intros _ [|i] x _ E; discriminate.
  - destruct k as [|k].
    + cbn [skipn]. rewrite forallb_forall. split.
      * intros H i x _ E. apply H. now apply nth_error_In in E.
      * intros H x I. apply In_nth_error in I. destruct I as (i & E). exact (H i x (Nat.le_0_l i) E).
    + cbn [skipn]. rewrite IH. split.
      * intros H [|i] x L E; [lia|]. apply (H i x); [lia|exact E].
      * intros H i x L E. apply (H (S i) x); [lia|exact E].
Qed.
Lemma has_kwarg_in k l : has_kwarg k l = true <-> In k (map fst l).
Proof.
  unfold has_kwarg. rewrite existsb_exists, in_map_iff. split; intros (p & A & B).
  - apply String.eqb_eq in B. eauto.
  - exists p. split; auto. now apply String.eqb_eq.
Qed.
Lemma verify_conforms n : verify_node n = true <-> conforms n.
Proof.
  unfold verify_node, conforms. destruct (n_op n) as [|sc| | | |]; try apply traced_valid; try (split; [reflexivity|auto]; fail); try (split; [discriminate|intros []]; fail).
  unfold check_overload. rewrite !andb_true_iff, traced_valid, orb_true_iff, andb_true_iff, Nat.eqb_eq, Nat.ltb_lt, forallb_skipn.
  assert (R : forallb (fun t => match t with JTensor => true | _ => false end) (s_returns sc) = true <-> Forall (eq JTensor) (s_returns sc)).
  { rewrite forallb_forall, Forall_forall. split; intros H t I; specialize (H t I); [destruct t; congruence|now subst]. }
  rewrite R. assert (E : forall p, match p_default p with Some _ => true | None => has_kwarg (p_name p) (n_kwargs n) end = true <-> p_default p <> None \/ In (p_name p) (map fst (n_kwargs n))).
  { intros p. rewrite <- has_kwarg_in. destruct (p_default p); [split; [left; discriminate|reflexivity]|]. split; [auto|]. intros [H|H]; [now elim H|exact H]. }
  split.
  - intros (T & RT & [L|[L K]]); split; auto; split; auto; split; try lia.
    + intros i p Li Ei. assert (nth_error (s_params sc) i = None) by (apply nth_error_None; lia). congruence.
    + intros i p Li Ei. apply E. eauto.
  - intros (T & RT & L & K). split; auto. split; auto. destruct (Nat.eq_dec (length (n_args n)) (length (s_params sc))); [now left|right]. split; [lia|].
    intros i p Li Ei. apply E. eauto.
Qed.
(** C77: the graphs that pass verification. *)
Theorem C77_subset g : verify_graph g = true <-> Forall conforms g.
Proof. unfold verify_graph. rewrite forallb_forall, Forall_forall. split; intros H n I; apply verify_conforms; auto. Qed.
(** Other graphs are refused. *)
Theorem C77_outside_refused registered g name : ~ Forall conforms g -> import_fx_graph_as_func registered g name = None.
Proof. intros H. unfold import_fx_graph_as_func. destruct (verify_graph g) eqn:E; [|reflexivity]. elim H. now apply C77_subset. Qed.

(** C78: which arguments can be imported. *)
Lemma unwrap_optional t u : unwrap t = u -> optional_of u t.
Proof. revert u. induction t; cbn [unwrap]; intros u <-; try constructor. now apply IHt. Qed.
Lemma optional_unwrap t u : optional_of u t -> (forall v, u <> JOptional v) -> unwrap t = u.
Proof. induction 1 as [|v H IH]; intros N; cbn [unwrap]; [|auto]. destruct u; try reflexivity. now elim (N u). Qed.
Lemma is_int_iff t : is_int (EJit t) = true <-> optional_of JInt t.
Proof.
  unfold is_int. split.
  - destruct (unwrap t) eqn:E; try discriminate. intros _. now apply unwrap_optional.
  - intros H. now rewrite (optional_unwrap t JInt H) by discriminate.
Qed.
Lemma list_element_iff t u : list_element (EJit t) = Some u <-> optional_of (JList u) t.
Proof.
  unfold list_element. split.
  - destruct (unwrap t) eqn:E; try discriminate. intros [= <-]. now apply unwrap_optional.
  - intros H. now rewrite (optional_unwrap t (JList u) H) by discriminate.
Qed.
Section Arguments.
  Variables (g : list node) (e : env).
  Definition bound_in (n : nat) : Prop := get e n 0 <> None.
  Hypothesis valid : forall n, bound_in n -> is_valid_meta_val (meta_of g n) = true.
  Lemma element_iff u a s : import_argument g e a (Some (EMlir u)) s <> None <-> element bound_in a.
  Proof.
    unfold bound_in. destruct a as [n| |bb|z|f|w|d|k i|m|l|l|l|]; cbn [import_argument obind is_int list_element guard element]; try (split; [auto|discriminate]; fail); try (split; [congruence|intros []]; fail).
    destruct (get e n 0); cbn [obind]; split; congruence.
  Qed.
  Lemma elements_iff u l : forall s, import_list g e u l s <> None <-> Forall (element bound_in) l.
  Proof.
    induction l as [|a l IH]; intros s; [split; [constructor|discriminate]|]. rewrite import_list_cons. split.
    - intros H. destruct (import_argument g e a (Some (EMlir u)) s) as [[v s1]|] eqn:E; [|now elim H]. cbn [obind] in H. constructor.
      + apply (element_iff u a s). congruence.
      + apply (IH s1). destruct (import_list g e u l s1) as [[vs s2]|]; [discriminate|now elim H].
    - intros H. inversion H as [|? ? Ha Hl]; subst. apply (element_iff u a s) in Ha. destruct (import_argument g e a (Some (EMlir u)) s) as [[v s1]|]; [|now elim Ha]. cbn [obind].
      apply (IH s1) in Hl. destruct (import_list g e u l s1) as [[vs s2]|]; [discriminate|now elim Hl].
  Qed.
  Lemma tensors_iff l : mapM (tensor_element g e) l <> None <-> Forall (fun a => exists n, a = ANode n /\ bound_in n) l.
  Proof.
    induction l as [|a l IH]; [split; [constructor|discriminate]|]. cbn [mapM]. split.
    - intros H. destruct (tensor_element g e a) as [i|] eqn:E; [|now elim H]. cbn [obind] in H. constructor.
      + destruct a; try discriminate. exists n. split; auto. unfold bound_in. cbn in E. destruct (is_valid_meta_val (meta_of g n)); [|discriminate]. cbn in E. congruence.
      + apply IH. destruct (mapM (tensor_element g e) l); [discriminate|now elim H].
    - intros H. inversion H as [|? ? (n & -> & B) Hl]; subst. cbn [tensor_element]. rewrite (valid n B). cbn [guard obind]. unfold bound_in in B. destruct (get e n 0); [|now elim B]. cbn [obind].
      apply IH in Hl. destruct (mapM (tensor_element g e) l); [discriminate|now elim Hl].
  Qed.
  Theorem C78_arguments t a s : import_argument g e a (Some (EJit t)) s <> None <-> importable bound_in t a.
  Proof.
    assert (GUARD : forall (o : option (nat * st)), (do _ <- guard (is_int (EJit t)); o) <> None <-> optional_of JInt t /\ o <> None).
    { intros o. rewrite <- is_int_iff. destruct (is_int (EJit t)); cbn [guard obind]; split; [auto|tauto|congruence|intros [? _]; discriminate]. }
    destruct a as [n| |bb|z|f|w|d|k i|m|l|l|l|]; cbn [import_argument obind]; try (split; [constructor|discriminate]; fail); try (split; [congruence|intros K; inversion K]; fail).
    - split.
      + intros H. constructor. unfold bound_in. destruct (get e n 0); [discriminate|now elim H].
      + intros H. inversion H as [? B| | | | | | | | | | |]; subst. unfold bound_in in B. destruct (get e n 0); [discriminate|now elim B].
    - rewrite GUARD. split.
      + intros [I D]. constructor; auto. destruct (DTYPE_TO_INT d) as [z|] eqn:E; [|now elim D]. now apply C78_dtype_codes in E.
      + intros K. inversion K as [| | | | | | |? I C| | | |]; subst. split; auto. rewrite (proj2 (C78_dtype_codes d (code d)) (conj C eq_refl)). discriminate.
    - rewrite GUARD. split; [intros [I _]; now constructor|]. intros K. inversion K; subst. split; [assumption|discriminate].
    - rewrite GUARD. split; [intros [I _]; now constructor|]. intros K. inversion K; subst. split; [assumption|discriminate].
    - assert (ANY : forall u, u <> JTensor -> (do c <- torch_type_to_mlir_type u; do (els, s') <- import_list g e c l s; do u' <- torch_type_to_mlir_type (JList u); Some (emit1 KList els u' s')) <> None <->
        (exists c, counterpart u c) /\ Forall (element bound_in) l).
      { intros u N. destruct (torch_type_to_mlir_type u) as [c|] eqn:E; cbn [obind].
        - apply C78_type_counterparts in E. rewrite <- (elements_iff c l s). destruct (import_list g e c l s) as [[els s']|]; cbn [obind].
          + rewrite (proj2 (C78_type_counterparts (JList u) (List_ c)) (c_list _ _ E)). cbn [obind]. split; [split; [eauto|discriminate]|discriminate].
          + split; [congruence|tauto].
        - split; [congruence|]. intros [(c & C) _]. apply C78_type_counterparts in C. congruence. }
      assert (BIND : forall u, u <> JTensor -> importable bound_in t (AList l) -> list_element (EJit t) = Some u -> (exists c, counterpart u c) /\ Forall (element bound_in) l).
      { intros u N K E. inversion K as [| | | | | | | | | |? O|u' c ? O N' C]; subst; apply list_element_iff in O; rewrite O in E; injection E as <-; [now elim N|]. eauto. }
      destruct (list_element (EJit t)) as [u|] eqn:E; cbn [obind].
      2:{ split; [congruence|]. intros K. inversion K as [| | | | | | | | | |? O|u' c ? O N' C]; subst; apply list_element_iff in O; congruence. }
      pose proof (proj1 (list_element_iff t u) E) as OU.
      assert (DEC : u = JTensor \/ u <> JTensor) by (destruct u; auto; right; discriminate).
      destruct DEC as [-> |N].
      + split.
        * intros H. apply i_tensors; auto. apply tensors_iff. destruct (mapM (tensor_element g e) l); [discriminate|now elim H].
        * intros K. assert (F : Forall (fun a => exists n, a = ANode n /\ bound_in n) l).
          { inversion K as [| | | | | | | | | |? O F|u' c ? O N' C]; subst; [exact F|]. apply list_element_iff in O. rewrite O in E. injection E as ->. now elim N'. }
          apply tensors_iff in F. destruct (mapM (tensor_element g e) l); [|now elim F]. cbn [obind].
          rewrite (proj2 (C78_type_counterparts (JList JTensor) _) (c_list _ _ c_tensor)). discriminate.
      + split.
        * intros H. assert (P : (exists c, counterpart u c) /\ Forall (element bound_in) l).
          { apply (ANY u N). intros Q. apply H. rewrite <- Q. destruct u; try reflexivity; try (now elim N); unfold import_list; now destruct (torch_type_to_mlir_type _). }
          destruct P as [(c & C) F]. now apply (i_list _ _ u c).
        * intros K. apply (BIND u N) in K; auto. apply (ANY u N) in K. intros Q. apply K. rewrite <- Q. destruct u; try reflexivity; try (now elim N); unfold import_list; now destruct (torch_type_to_mlir_type _).
  Qed.
End Arguments.

(** ** Every ready graph is imported *)
Lemma importable_mono (P Q : nat -> Prop) t a : (forall n, P n -> Q n) -> importable P t a -> importable Q t a.
Proof.
  intros S H. inversion H; subst; try (constructor; auto; fail).
  - apply i_tensors; auto. eapply Forall_impl; [|eassumption]. intros a (n & E & B). eauto.
  - eapply i_list; eauto. eapply Forall_impl; [|eassumption]. intros a E. destruct a; cbn in *; auto.
Qed.
Lemma types_ok m : Forall writable (fakes m) -> is_valid_meta_val m = true -> exists ts, types_for_node m = Some ts /\ length ts = length (fakes m).
Proof.
  intros W V. destruct m as [[f|l|]|]; try discriminate; cbn [fakes types_for_node] in *.
  - inversion W as [|? ? Wf _]; subst. destruct (C78_tensor_types f Wf) as (d & _ & ->). cbn. eauto.
  - assert (E : exists ts, mapM import_fake_tensor l = Some ts).
    { clear V. induction W as [|f l Wf W IH]; [now exists []|]. destruct IH as (ts & IH). destruct (C78_tensor_types f Wf) as (d & _ & E). cbn [mapM]. rewrite E, IH. cbn. eauto. }
    destruct E as (ts & E). exists ts. split; auto. now apply mapM_length in E.
Qed.
Section Success.
  Variable registered : string -> bool.
  Variables (g : list node).
  Hypothesis ND : NoDup (map n_id g).
  Hypothesis CF : Forall conforms g.
  Definition holds (seen : list node) (x : state) : Prop :=
    i_seen x = length (placeholders seen) /\
    (forall i, In i (map n_id seen) -> tensor_node g i -> get (i_env x) i 0 <> None) /\
    (forall i l j, In i (map n_id seen) -> meta_of g i = Some (MList l) -> 0 <= j < zlen l -> get (i_env x) i j <> None) /\
    (forall i j, get (i_env x) i j <> None -> is_valid_meta_val (meta_of g i) = true).
  Lemma import_arguments_succeed e l : (forall n, get e n 0 <> None -> is_valid_meta_val (meta_of g n) = true) ->
    Forall (fun p => exists t, snd p = Some (EJit t) /\ importable (bound_in e) t (fst p)) l -> forall s, import_arguments g e l s <> None.
  Proof.
    intros V. induction 1 as [|[a ex] l (t & E & I) H IH]; intros s; [discriminate|]. cbn [fst snd import_arguments] in *. subst ex.
    apply (C78_arguments g e V t a s) in I. destruct (import_argument g e a (Some (EJit t)) s) as [[v s1]|]; [|now elim I]. cbn [obind].
    specialize (IH s1). destruct (import_arguments g e l s1) as [[vs s2]|]; [discriminate|now elim IH].
  Qed.
  Lemma operands_in n p : forall ps i, In p (operands_for n i ps) -> exists j q, nth_error ps j = Some q /\ p = (operand_for n (i + j) q, Some (EJit (p_type q))).
  Proof.
    induction ps as [|q ps IH]; intros i I; [destruct I|]. destruct I as [<- |I].
    - exists 0%nat, q. rewrite Nat.add_0_r. auto.
    - destruct (IH (S i) I) as (j & r & E & ->). exists (S j), r. split; auto. now replace (S i + j)%nat with (i + S j)%nat by lia.
  Qed.
  Lemma operand_actual n sc i p a : keywords_ok n -> n_op n = CallOverload sc -> nth_error (s_params sc) i = Some p -> actual n i p = Some a -> operand_for n i p = a.
  Proof.
    intros K O N A. unfold operand_for, actual, find_kwarg in *. destruct (find (fun k => String.eqb (fst k) (p_name p)) (n_kwargs n)) as [k|] eqn:F.
    - destruct (find_some _ _ F) as [I E]. apply String.eqb_eq in E. rewrite (K sc k O I p (nth_error_In _ _ N) (eq_sym E)). cbn [option_map]. now injection A.
    - cbn [option_map]. destruct (p_kwarg_only p); destruct (nth_error (n_args n) i); try (now injection A); now rewrite A.
  Qed.
  Lemma placeholders_app l1 l2 : placeholders (l1 ++ l2) = placeholders l1 ++ placeholders l2.
  Proof. apply filter_app. Qed.
  Lemma step_succeeds seen n rest x num : g = seen ++ n :: rest -> n_op n <> Output -> ready registered g seen n -> num = length (placeholders g) -> holds seen x ->
    exists x', import_node registered g num x n = Some x' /\ holds (seen ++ [n]) x'.
  Proof.
    intros G NO RD NUM (SN & TN & TU & VA).
    assert (I : In n g) by (rewrite G; apply in_or_app; right; now left).
    pose proof (meta_found g n ND I) as MF. pose proof (proj1 (Forall_forall _ _) CF n I) as C.
    assert (LAST : forall i, In i (map n_id (seen ++ [n])) -> In i (map n_id seen) \/ i = n_id n).
    { intros i H. rewrite map_app in H. apply in_app_or in H. destruct H as [H|[<- |[]]]; auto. }
    assert (NEW : forall v s sn, traced n -> (tensor_node g (n_id n)) -> sn = length (placeholders (seen ++ [n])) ->
      holds (seen ++ [n]) {| i_st := s; i_env := ((n_id n, 0), v) :: i_env x; i_seen := sn; i_returns := i_returns x |}).
    { intros v s sn TR T SN'. unfold holds. cbn [i_env i_seen]. split; [exact SN'|]. split; [|split].
      - intros i H Ti. rewrite get_cons. destruct (Nat.eqb_spec (n_id n) i) as [E|E]; cbn [andb]; [rewrite Z.eqb_refl; discriminate|].
        apply TN; auto. destruct (LAST i H) as [?| ->]; [auto|congruence].
      - intros i l j H M J. rewrite get_cons. destruct (Nat.eqb_spec (n_id n) i) as [E|E]; cbn [andb].
        + subst i. destruct T as [f T]. congruence.
        + apply (TU i l j); auto. destruct (LAST i H) as [?| ->]; [auto|congruence].
      - intros i j. rewrite get_cons. destruct (Nat.eqb_spec (n_id n) i) as [E|E]; cbn [andb]; [|apply VA]. subst i. intros _. rewrite MF. now apply traced_valid. }
    unfold import_node. unfold ready in RD. unfold conforms in C. destruct (n_op n) as [|sc| | | |] eqn:O; try contradiction.
    - destruct RD as [_ T]. assert (LT : (i_seen x < num)%nat).
      { rewrite SN, NUM, G, placeholders_app, app_length. unfold placeholders at 3. cbn [filter]. rewrite O. cbn [length]. lia. }
      apply Nat.ltb_lt in LT. rewrite LT. cbn [guard obind]. eexists. split; [reflexivity|]. apply NEW; auto.
      rewrite placeholders_app, app_length, SN. unfold placeholders at 3. cbn [filter]. rewrite O. cbn [length]. lia.
    - destruct RD as (RG & W & K & P). destruct C as (TR & _). unfold import_op_overload_call. rewrite RG. cbn [guard obind].
      destruct (types_ok (n_meta n) W (proj2 (traced_valid n) TR)) as (ts & ET & LT). rewrite ET. cbn [obind].
      assert (IA : import_arguments g (i_env x) (operands_for n 0 (s_params sc)) (i_st x) <> None).
      { apply import_arguments_succeed; [intros m; apply VA|]. apply Forall_forall. intros p Ip. apply operands_in in Ip. destruct Ip as (j & q & Eq & ->). cbn [fst snd].
        destruct (P j q Eq) as (a & A & IM). exists (p_type q). split; auto. cbn [Nat.add]. rewrite (operand_actual n sc j q a K O Eq A).
        refine (importable_mono _ _ _ _ _ IM). intros m [Im Tm]. exact (TN m Im Tm). }
      destruct (import_arguments g (i_env x) (operands_for n 0 (s_params sc)) (i_st x)) as [[xs s1]|]; [|now elim IA]. cbn [obind emit]. eexists. split; [reflexivity|].
      assert (PL : length (placeholders (seen ++ [n])) = length (placeholders seen)).
      { rewrite placeholders_app, app_length. unfold placeholders at 2. cbn [filter]. rewrite O. cbn [length]. lia. }
      unfold holds. cbn [i_env i_seen]. rewrite PL. split; [exact SN|].
      assert (GET : forall i j, get (number 0 (n_id n) (seq (s_next s1) (length ts)) ++ i_env x) i j =
         if ((n_id n =? i)%nat && (0 <=? j) && (j <? Z.of_nat (length ts)))%bool then nth_error (seq (s_next s1) (length ts)) (Z.to_nat j) else get (i_env x) i j).
      { intros i j. rewrite get_number, seq_length, Z.add_0_l, Z.sub_0_r. reflexivity. }
      assert (SELF : forall j, 0 <= j < Z.of_nat (length ts) -> get (number 0 (n_id n) (seq (s_next s1) (length ts)) ++ i_env x) (n_id n) j <> None).
      { intros j J. rewrite GET, Nat.eqb_refl. destruct (Z.leb_spec 0 j); [|lia]. destruct (Z.ltb_spec j (Z.of_nat (length ts))); [|lia]. cbn [andb]. apply nth_error_Some. rewrite seq_length. lia. }
      split; [|split].
      + intros i H Ti. destruct (Nat.eq_dec i (n_id n)) as [-> |D].
        * apply SELF. destruct Ti as [f Ti]. rewrite MF in Ti. rewrite Ti in LT. cbn in LT. rewrite LT. lia.
        * rewrite GET. destruct (Nat.eqb_spec (n_id n) i); [congruence|]. cbn [andb]. apply TN; auto. destruct (LAST i H); [auto|congruence].
      + intros i l j H M J. destruct (Nat.eq_dec i (n_id n)) as [-> |D].
        * apply SELF. rewrite MF in M. rewrite M in LT. cbn [fakes] in LT. rewrite LT. exact J.
        * rewrite GET. destruct (Nat.eqb_spec (n_id n) i); [congruence|]. cbn [andb]. apply (TU i l j); auto. destruct (LAST i H); [auto|congruence].
      + intros i j. rewrite GET. destruct (Nat.eqb_spec (n_id n) i) as [E|E]; cbn [andb]; [|apply VA]. subst i. intros _. rewrite MF. now apply traced_valid.
    - destruct RD as (W & T & m & i & r & l & AR & Im & M & J). rewrite AR. pose proof (TU m l i Im M J) as GT. destruct (get (i_env x) m i) as [v|]; [|now elim GT]. cbn [obind].
      eexists. split; [reflexivity|]. apply NEW; auto. rewrite placeholders_app, app_length, SN. unfold placeholders at 3. cbn [filter]. rewrite O. cbn [length]. lia.
  Qed.
End Success.
Theorem C77_ready_graphs_imported registered g0 o name :
  let g := g0 ++ [o] in
  NoDup (map n_id g) -> Forall conforms g -> Forall (fun n => n_op n <> Output) g0 -> n_op o = Output ->
  (forall seen n rest, g = seen ++ n :: rest -> ready registered g seen n) ->
  exists f, import_fx_graph_as_func registered g name = Some f.
Proof.
  intros g ND CF NO O RD. unfold import_fx_graph_as_func. rewrite (proj2 (C77_subset g) CF). cbn [guard obind].
  assert (RDn : forall n, In n g -> exists seen, ready registered g seen n).
  { intros n I. apply in_split in I. destruct I as (a & b & E). eauto. }
  assert (FT : forall n, In n g -> tensor_node g (n_id n) -> n_op n <> Output -> first_type (n_meta n) <> None).
  { intros n I [f T] NOn. rewrite (meta_found g n ND I) in T. destruct (RDn n I) as (seen & R).
    assert (W : Forall writable (fakes (n_meta n))) by (unfold ready in R; destruct (n_op n); tauto).
    destruct (types_ok (n_meta n) W) as (ts & E & L); [now rewrite T|]. unfold first_type. rewrite E. rewrite T in L. destruct ts; discriminate. }
  assert (IT : exists ins, input_types g = Some ins).
  { unfold input_types. fold (placeholders g).
    assert (A : forall l, (forall n, In n l -> first_type (n_meta n) <> None) -> exists ins, mapM (fun n => first_type (n_meta n)) l = Some ins).
    { induction l as [|n l IH]; intros H; [now exists []|]. cbn [mapM]. pose proof (H n (or_introl eq_refl)) as Hn. destruct (first_type (n_meta n)); [|now elim Hn]. cbn [obind].
      destruct IH as (ins & ->); [intros m Im; apply H; now right|]. cbn. eauto. }
    apply A. intros n I. apply filter_In in I. destruct I as [I P]. destruct (RDn n I) as (seen & R). unfold ready in R. destruct (n_op n) eqn:On; try discriminate. apply FT; auto; [tauto|congruence]. }
  destruct IT as (ins & EI). rewrite EI. cbn [obind].
  assert (LI : length ins = length (placeholders g)) by (unfold input_types in EI; apply mapM_length in EI; exact EI).
  pose proof (RD g0 o [] eq_refl) as RO. unfold ready in RO. rewrite O in RO. destruct RO as (l & rest & AR & BD).
  assert (OA : output_args o = Some l) by (unfold output_args; destruct AR as [-> | ->]; reflexivity).
  assert (ROF : exists outs, result_types_of g o = Some outs).
  { unfold result_types_of. rewrite OA. cbn [obind]. clear AR OA. induction BD as [|a l (i & -> & Ii & Ti) BD IH]; [now exists []|]. cbn [mapM].
    apply in_map_iff in Ii. destruct Ii as (n & <- & In'). assert (Ig : In n g) by (apply in_or_app; now left).
    rewrite (meta_found g n ND Ig). pose proof (FT n Ig Ti (proj1 (Forall_forall _ _) NO n In')) as F. destruct (first_type (n_meta n)); [|now elim F]. cbn [obind].
    destruct IH as (outs & ->). cbn. eauto. }
  destruct ROF as (outs & EO).
  assert (RT : result_types g g None = Some outs).
  { assert (A : forall G l, Forall (fun n => n_op n <> Output) l -> result_types_of G o = Some outs -> forall last, result_types G (l ++ [o]) last = Some outs).
    { clear - O. intros G l NO EO. induction NO as [|n l Hn NO IH]; intros last; cbn [app result_types].
      - rewrite O, EO. reflexivity.
      - destruct (n_op n); try apply IH. now elim Hn. }
    apply (A g g0 NO EO). }
  rewrite RT. cbn [obind].
  assert (LOOP : forall rest seen x, g = seen ++ rest ++ [o] -> Forall (fun n => n_op n <> Output) rest -> holds g seen x ->
     exists x', foldM (import_node registered g (length ins)) rest x = Some x' /\ holds g (seen ++ rest) x').
  { induction rest0 as [|n r IH]; intros seen x E NOr H; [exists x; rewrite app_nil_r; auto|]. inversion NOr as [|? ? Nn Nr]; subst.
    destruct (step_succeeds registered g ND CF seen n (r ++ [o]) x (length ins) E Nn (RD _ _ _ E) LI H) as (x1 & E1 & H1).
    destruct (IH (seen ++ [n]) x1) as (x2 & E2 & H2); auto; [rewrite E, <- app_assoc; reflexivity|]. exists x2. cbn [foldM]. rewrite E1. cbn [obind]. rewrite E2. split; auto.
    now rewrite <- app_assoc in H2. }
  set (x0 := {| i_st := _; i_env := []; i_seen := 0; i_returns := [] |}).
  destruct (LOOP g0 [] x0 eq_refl NO) as (x1 & E1 & H1).
  { unfold holds, x0. cbn. repeat split; auto; intros; try contradiction. }
  assert (FOLD : foldM (import_node registered g (length ins)) g x0 = import_node registered g (length ins) x1 o).
  { assert (A : forall (F : state -> node -> option state) l x, foldM F l x = Some x1 -> foldM F (l ++ [o]) x = F x1 o).
    { clear. intros F. induction l as [|n l IH]; intros x E; cbn [app foldM] in *.
      - injection E as ->. destruct (F x1 o); reflexivity.
      - destruct (F x n); [|discriminate]. cbn [obind] in *. now apply IH. }
    apply (A _ g0 x0 E1). }
  rewrite FOLD. unfold import_node. rewrite O, OA. cbn [obind].
  assert (IA : import_arguments g (i_env x1) (map (fun a => (a, None)) l) (i_st x1) <> None).
  { destruct H1 as (_ & TN & _). generalize (i_st x1). clear - BD TN. induction BD as [|a l (i & -> & Ii & Ti) BD IH]; intros s; [discriminate|]. cbn [map import_arguments import_argument].
    pose proof (TN i Ii Ti) as G. destruct (get (i_env x1) i 0); [|now elim G]. cbn [obind]. specialize (IH s). destruct (import_arguments g (i_env x1) (map (fun a => (a, None)) l) s) as [[vs s2]|]; [discriminate|now elim IH]. }
  destruct (import_arguments g (i_env x1) (map (fun a => (a, None)) l) (i_st x1)) as [[vs s2]|]; [|now elim IA]. cbn [obind]. eauto.
Qed.

(** ** Where the importer goes wrong *)
Definition any_op : string -> bool := fun _ => true.
Definition mk i o a k m := {| n_id := i; n_op := o; n_args := a; n_kwargs := k; n_meta := m |}.
Definition tensor3 : option meta := Some (MTensor ([2; 3], Float)).
Definition op1 (ps : list param) := {| s_name := "aten::f"; s_overload := ""; s_params := ps; s_returns := [JTensor] |}.
Definition wrong (g : list node) (name : string -> string -> list value -> option value) (index : value -> Z -> option value) (xs out : list value) : Prop :=
  exists f, import_fx_graph_as_func any_op g "main" = Some f /\ NoDup (map n_id g) /\
  runs name index g xs [] out /\
  forall sem, (forall ns base overload ys, no_colon ns -> sem (dialect_name ns base overload) ys = name (ns ++ "::" ++ base)%string overload ys) ->
  exists out', invoke sem f xs = Some out' /\ out' <> out.
Lemma aten_no_colon : no_colon "aten".
Proof. unfold no_colon. cbn. intuition discriminate. Qed.
Ltac distinct := repeat (constructor; [cbn; intuition discriminate|]); constructor.
Ltac arguments := intros [|[|[|i]]] p E; cbn in E; try discriminate; try (destruct i; discriminate); injection E as <-; eexists; split; reflexivity.
Ltac named H := cbn; change "torch.aten.f"%string with (dialect_name "aten" "f" ""); rewrite (H "aten"%string "f"%string ""%string _ aten_no_colon).
(** A keyword argument for a parameter that is not keyword-only is replaced by the default. *)
Theorem C77_keyword_arguments_refuted : exists g call index xs out, wrong g call index xs out.
Proof.
  exists [mk 0 Placeholder [] [] tensor3;
          mk 1 (CallOverload (op1 [{| p_name := "self"; p_type := JTensor; p_kwarg_only := false; p_default := None |};
                                   {| p_name := "k"; p_type := JInt; p_kwarg_only := false; p_default := Some (AInt 1) |}]))
            [ANode 0] [("k"%string, AInt 2)] tensor3;
          mk 2 Output [ATuple [ANode 1]] [] None].
  exists (fun _ _ ys => match ys with [VTensor a; VInt b] => Some (VTensor (a + b)) | _ => None end), (fun _ _ => None), [VTensor 5], [VTensor 7].
  eexists. split; [reflexivity|]. split; [distinct|]. split.
  - eapply r_placeholder; [reflexivity|exact I|]. eapply r_call with (args := [ANode 0; AInt 2]); [reflexivity|arguments|reflexivity|repeat constructor|reflexivity|exact I|].
    eapply r_output; [reflexivity|left; reflexivity|]. repeat constructor.
  - intros sem H. exists [VTensor 6]. split; [|discriminate]. unfold invoke. named H. reflexivity.
Qed.
(** A node with several results that is used as an argument stands for its first result. *)
Theorem C77_tuple_operands_refuted : exists g call index xs out, wrong g call index xs out.
Proof.
  exists [mk 0 (CallOverload (op1 [])) [] [] (Some (MList [([2], Float); ([3], Float)]));
          mk 1 (CallOverload (op1 [{| p_name := "tensors"; p_type := JList JTensor; p_kwarg_only := false; p_default := None |}])) [ANode 0] [] tensor3;
          mk 2 Output [ATuple [ANode 1]] [] None].
  exists (fun _ _ ys => match ys with [] => Some (VTuple [VTensor 1; VTensor 2]) | [VTuple [VTensor a; VTensor b]] => Some (VTensor (a + b)) | [VTensor a] => Some (VTensor a) | _ => None end), (fun _ _ => None), [], [VTensor 3].
  eexists. split; [reflexivity|]. split; [distinct|]. split.
  - eapply r_call with (args := []); [reflexivity|arguments|reflexivity|constructor|reflexivity| |].
    { eexists. split; [reflexivity|]. split; [reflexivity|]. repeat constructor. }
    eapply r_call with (args := [ANode 0]); [reflexivity|arguments|reflexivity|repeat constructor|reflexivity|exact I|].
    eapply r_output; [reflexivity|left; reflexivity|]. repeat constructor.
  - intros sem H. exists [VTensor 1]. split; [|discriminate]. unfold invoke. named H. cbn. change "torch.aten.f"%string with (dialect_name "aten" "f" ""). rewrite (H "aten"%string "f"%string ""%string _ aten_no_colon). reflexivity.
Qed.
(** Indexing a tensor with 0 gives the tensor. *)
Theorem C77_indexed_tensors_refuted : exists g call index xs out, wrong g call index xs out.
Proof.
  exists [mk 0 Placeholder [] [] tensor3; mk 1 CallGetitem [ANode 0; AInt 0] [] (Some (MTensor ([3], Float))); mk 2 Output [ATuple [ANode 1]] [] None].
  exists (fun _ _ _ => None), (fun v _ => match v with VTensor a => Some (VTensor (a + 1)) | _ => None end), [VTensor 5], [VTensor 6].
  eexists. split; [reflexivity|]. split; [distinct|]. split.
  - eapply r_placeholder; [reflexivity|exact I|]. eapply r_getitem; [reflexivity|reflexivity|reflexivity|exact I|reflexivity|exact I|].
    eapply r_output; [reflexivity|left; reflexivity|]. repeat constructor.
  - intros sem H. exists [VTensor 5]. split; [|discriminate]. reflexivity.
Qed.
(** The index of a device is dropped. *)
Theorem C77_device_index_refuted : exists g call index xs out, wrong g call index xs out.
Proof.
  exists [mk 0 (CallOverload (op1 [{| p_name := "device"; p_type := JOther; p_kwarg_only := true; p_default := Some ANone |}])) [] [("device"%string, ADevice "cuda" (Some 1))] tensor3;
          mk 1 Output [ATuple [ANode 0]] [] None].
  exists (fun _ _ ys => match ys with [VDevice _ (Some i)] => Some (VTensor i) | [VDevice _ None] => Some (VTensor 0) | _ => None end), (fun _ _ => None), [], [VTensor 1].
  eexists. split; [reflexivity|]. split; [distinct|]. split.
  - eapply r_call with (args := [ADevice "cuda" (Some 1)]); [reflexivity|arguments|reflexivity|repeat constructor|reflexivity|exact I|].
    eapply r_output; [reflexivity|left; reflexivity|]. repeat constructor.
  - intros sem H. exists [VTensor 0]. split; [|discriminate]. unfold invoke. named H. reflexivity.
Qed.

(** ** A concrete graph: split with two results, getitem, a keyword-only dtype and a list of integers *)
Definition ex_split := {| s_name := "aten::split"; s_overload := "sizes"; s_returns := [JTensor; JTensor];
  s_params := [{| p_name := "self"; p_type := JTensor; p_kwarg_only := false; p_default := None |};
               {| p_name := "sizes"; p_type := JList JInt; p_kwarg_only := false; p_default := None |};
               {| p_name := "dim"; p_type := JInt; p_kwarg_only := false; p_default := Some (AInt 0) |}] |}.
Definition ex_sum := {| s_name := "aten::sum"; s_overload := ""; s_returns := [JTensor];
  s_params := [{| p_name := "self"; p_type := JTensor; p_kwarg_only := false; p_default := None |};
               {| p_name := "dtype"; p_type := JOptional JInt; p_kwarg_only := true; p_default := Some ANone |}] |}.
Definition ex_graph :=
  [mk 10 Placeholder [] [] (Some (MTensor ([4; 3], Float)));
   mk 11 (CallOverload ex_split) [ANode 10; AList [AInt 1; AInt 3]] [] (Some (MList [([1; 3], Float); ([3; 3], Float)]));
   mk 12 CallGetitem [ANode 11; AInt 1] [] (Some (MTensor ([3; 3], Float)));
   mk 13 (CallOverload ex_sum) [ANode 12] [("dtype"%string, ADtype Double)] (Some (MTensor ([], Double)))] ++
  [mk 14 Output [ATuple [ANode 13; ANode 12]] [] None].
Definition ex_call (name overload : string) (ys : list value) : option value :=
  match ys with
  | [VTensor a; VList [VInt b; VInt c]; VInt 0] => Some (VTuple [VTensor (a + b); VTensor (a + c)])
  | [VTensor a; VInt 7] => Some (VTensor (a * 100))
  | _ => None
  end.
Example C77_nonvacuous :
  option_map (fun f => (map o_kind (f_ops f), f_returns f)) (import_fx_graph_as_func any_op ex_graph "main") =
    Some ([KInt 1; KInt 3; KList; KInt 0; KTorch "torch.aten.split.sizes"; KInt 7; KTorch "torch.aten.sum"], [[8; 6]]%nat) /\
  ordinary_graph ex_graph /\ (forall n sc, In n ex_graph -> n_op n = CallOverload sc -> qualified sc) /\ Forall conforms ex_graph /\
  (forall seen n rest, ex_graph = seen ++ n :: rest -> ready any_op ex_graph seen n) /\
  runs ex_call (fun _ _ => None) ex_graph [VTensor 5] [] [VTensor 800; VTensor 8].
Proof.
  assert (W : forall l d, forallb (fun z => 0 <=? z) l = true -> coded d -> writable (l, d)).
  { intros l d H C. split; [|exact C]. apply Forall_forall. intros z I. rewrite forallb_forall in H. cbn [fst] in I. specialize (H z I). lia. }
  assert (CF : coded Float) by (unfold coded; cbn; tauto). assert (CD : coded Double) by (unfold coded; cbn; tauto).
  split; [|split; [|split; [|split; [|split]]]].
  - vm_compute. reflexivity.
  - split; [distinct|]. unfold ex_graph. cbn [app].
    constructor; [split; [intros sc k O; discriminate|eexists; reflexivity]|].
    constructor; [split; [intros sc k O []|]|].
    { cbn [n_op mk]. intros [|[|[|i]]] p a E A; cbn in E; [| | |destruct i; discriminate]; injection E as <-; cbn in A; injection A as <-.
      - apply u_node. eexists. reflexivity.
      - apply u_list. repeat constructor; discriminate.
      - constructor; [discriminate|discriminate|exact I]. }
    constructor; [split; [intros sc k O; discriminate|split; [eexists; reflexivity|intros m i rest [= <- <- <-]; eexists; reflexivity]]|].
    constructor; [split|].
    { intros sc k O [<- |[]] p I E. cbn in O. injection O as <-. destruct I as [<- |[<- |[]]]; [discriminate|reflexivity]. }
    { cbn [n_op mk]. intros [|[|i]] p a E A; cbn in E; [| |destruct i; discriminate]; injection E as <-; cbn in A; injection A as <-.
      - apply u_node. eexists. reflexivity.
      - constructor; [discriminate|discriminate|exact I]. }
    constructor; [|constructor]. split; [intros sc k O; discriminate|]. intros l [= <-]. repeat constructor; eexists; reflexivity.
  - intros n sc I O. cbn in I. destruct I as [<- |[<- |[<- |[<- |[<- |[]]]]]]; try discriminate; cbn in O; injection O as <-; exists "aten"%string; eexists; split; try reflexivity; exact aten_no_colon.
  - apply C77_subset. reflexivity.
  - intros seen n rest E. unfold ex_graph at 1 in E.
    destruct seen as [|s1 [|s2 [|s3 [|s4 [|s5 seen]]]]]; cbn [app] in E; injection E; intros; subst; try (exfalso; match goal with K : [] = _ |- _ => now apply app_cons_not_nil in K end); cbn [ready n_op mk].
    + split; [repeat constructor; auto; cbn; lia|eexists; reflexivity].
    + split; [reflexivity|]. split; [repeat constructor; auto; cbn; lia|]. split; [intros sc k O []|].
      intros [|[|[|i]]] p P; cbn in P; try (destruct i; discriminate); injection P as <-; eexists; (split; [reflexivity|]).
      * constructor. split; [now left|eexists; reflexivity].
      * eapply i_list; [constructor|discriminate|constructor|repeat constructor].
      * constructor.
    + split; [repeat constructor; auto; cbn; lia|]. split; [eexists; reflexivity|]. do 4 eexists. split; [reflexivity|]. split; [right; now left|]. split; [reflexivity|]. unfold zlen. cbn [length]. lia.
    + split; [reflexivity|]. split; [repeat constructor; auto; cbn; lia|]. split.
      { intros sc k O [<- |[]] p I K. cbn in O. injection O as <-. destruct I as [<- |[<- |[]]]; [discriminate|reflexivity]. }
      intros [|[|i]] p P; cbn in P; try (destruct i; discriminate); injection P as <-; eexists; (split; [reflexivity|]).
      * constructor. split; [right; right; now left|eexists; reflexivity].
      * constructor; [repeat constructor|exact CD].
    + do 2 eexists. split; [right; reflexivity|]. repeat constructor; eexists; (split; [reflexivity|split; [cbn; tauto|eexists; reflexivity]]).
  - unfold ex_graph. cbn [app]. eapply r_placeholder; [reflexivity|exact I|].
    eapply r_call with (args := [ANode 10; AList [AInt 1; AInt 3]; AInt 0]); [reflexivity|arguments|reflexivity|repeat constructor|reflexivity| |].
    { eexists. split; [reflexivity|]. split; [reflexivity|]. repeat constructor. }
    eapply r_getitem_tuple; [reflexivity|reflexivity|reflexivity|reflexivity|exact I|].
    eapply r_call with (args := [ANode 12; ADtype Double]); [reflexivity|arguments|reflexivity|repeat constructor|reflexivity|exact I|].
    eapply r_output; [reflexivity|left; reflexivity|]. repeat constructor.
Qed.
Example C78_nonvacuous :
  torch_type_to_mlir_type (JOptional (JList JInt)) = Some (Optional (List_ (Atom IntA))) /\
  import_fake_tensor ([2; 3], Bool) = Some (Tens {| value_semantics := true; sizes := Some [2; 3]; elt := Some (Builtin (IntT 1 Signless)); sparsity := None |}) /\
  import_argument [] [] (AList [ADtype Float]) (Some (EJit (JList JInt))) {| s_ops := []; s_next := 0 |} = None /\
  import_argument [] [] (ADtype Float) (Some (EJit (JOptional JInt))) {| s_ops := []; s_next := 0 |} <> None.
Proof. repeat split; try reflexivity. discriminate. Qed.

(** A name without a namespace separator is all namespace: the operation's name ends in an empty component. *)
Lemma partition_whole s : (forall a b, s <> (a ++ "::" ++ b)%string) -> partition s = (s, "").
Proof.
  induction s as [|c s IH]; intros N; [reflexivity|].
  assert (N' : forall a b, s <> (a ++ "::" ++ b)%string) by (intros a b ->; apply (N (String c a) b); reflexivity).
  assert (P : partition (String c s) = let '(a, b) := partition s in (String c a, b)).
  { destruct (Ascii.eqb_spec c ":") as [->|C].
    - destruct s as [|d s]; [reflexivity|]. destruct (Ascii.eqb_spec d ":") as [->|D]; [exfalso; apply (N "" s); reflexivity|].
      destruct d as [[] [] [] [] [] [] [] []]; try reflexivity; congruence.
    - destruct c as [[] [] [] [] [] [] [] []]; try reflexivity; congruence. }
  rewrite P, (IH N'). reflexivity.
Qed.
Theorem C77_unqualified_names sc : (forall a b, s_name sc <> (a ++ "::" ++ b)%string) -> s_overload sc = "" -> mlir_op_name sc = ("torch." ++ s_name sc ++ ".")%string.
Proof. intros N O. unfold mlir_op_name. rewrite (partition_whole _ N), O. reflexivity. Qed.
Print Assumptions C77_meaning.
Print Assumptions C77_signature.
Print Assumptions C77_subset.
Print Assumptions C77_outside_refused.
Print Assumptions C77_ready_graphs_imported.
Print Assumptions C77_keyword_arguments_refuted.
Print Assumptions C77_tuple_operands_refuted.
Print Assumptions C77_indexed_tensors_refuted.
Print Assumptions C77_device_index_refuted.
Print Assumptions C78_type_counterparts.
Print Assumptions C78_lists_of_strings_refuted.
Print Assumptions C78_tensor_types.
Print Assumptions C78_uncoded_dtypes_refused.
Print Assumptions C78_dtype_codes.
Print Assumptions C78_memory_format_codes.
Print Assumptions C78_layout_codes. Print Assumptions C78_layouts_distinct.
Print Assumptions C78_sparse_csc_is_mkldnn_refuted.
Print Assumptions C78_arguments.
