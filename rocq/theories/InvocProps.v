(** C117: invocations show functions and operators the same arguments, and the generated ones decide which dtypes are refused. *)
From Coq Require Import ZArith Bool Lia List.
From Verif Require Import Prelude InvocModel InvocSpec InvocProofs.
Import ListNotations.
Open Scope list_scope.
Open Scope nat_scope.

(** ** Arguments *)
Theorem C117_arguments : forall S O K device (int : Z -> S) (code : dtype -> O) (i : invocation S O K device),
  (forall b, to_shape_function_args int i = Some b <-> corresponds (fun t x => x = AList (map (fun z => AScalar (int z)) (t_shape t))) (AList (i_args i)) b) /\
  (forall b, to_dtype_function_args int code i = Some b <->
     corresponds (fun t x => x = ATuple [AScalar (int (Z.of_nat (length (t_shape t)))); AOther (code (t_dtype t))]) (AList (i_args i)) b) /\
  (forall b, to_real_op_args i = Some b <-> corresponds (fun t x => x = ATensor (t_shape t, t_stride t, t_dtype t, t_device t)) (AList (i_args i)) b).
Proof. intros. split; [|split]; intros b; apply transform_iff. Qed.
(** All three are there unless an object that is no number, text, tensor, list or tuple occurs, and then none is. *)
Theorem C117_arguments_exist : forall S O K device (int : Z -> S) (code : dtype -> O) (i : invocation S O K device),
  (to_shape_function_args int i = None <-> has_other (AList (i_args i))) /\ (to_dtype_function_args int code i = None <-> has_other (AList (i_args i))) /\
  (to_real_op_args i = None <-> has_other (AList (i_args i))).
Proof. intros. split; [|split]; apply transform_none. Qed.
Theorem C117_placeholders : forall device (meta : device) shape d dev,
  TensorOfShape meta shape d dev = {| t_shape := shape; t_dtype := d; t_device := match dev with Some v => v | None => meta end; t_stride := None |} /\
  LongTensorOfShape meta shape dev = TensorOfShape meta shape Int64 dev /\
  NonZeroDTensorWithDtype meta d dev = TensorOfShape meta [1%Z] d dev /\ ZeroDTensorWithDtype meta d dev = TensorOfShape meta [] d dev.
Proof. intros. split; [|split; [|split]]; reflexivity. Qed.

(** ** Tensors of the same dtype: one invocation for each dtype *)
Theorem C117_same_dtype : forall S O K device (meta : device) num shapes dev errors (args : list (arg S _ O)) (k : K) l,
  check_tensors_with_the_same_dtype meta num shapes dev errors args k = Some l <->
  exists tensors, ((shapes = None /\ exists n, num = Some n /\ tensors = repeat [1%Z] n) \/ (num = None /\ shapes = Some tensors)) /\
    l = map (fun d => {| i_args := map (fun s => ATensor (TensorOfShape meta s d dev)) tensors ++ args; i_kwargs := k; raises := mem_set d errors |}) sorted_torch_types.
Proof.
  intros S O K device meta num shapes dev errors args k l. unfold check_tensors_with_the_same_dtype.
  assert (G : forall tensors, (forall d, same_dtype_tensors (S := S) (O := O) meta num shapes dev d = Some (map (fun s => ATensor (TensorOfShape meta s d dev)) tensors)) ->
    mapM (fun d => do tensors <- same_dtype_tensors meta num shapes dev d;
      Some (if mem_set d errors then ErrorInvocation (tensors ++ args) k else Invocation (tensors ++ args) k)) sorted_torch_types =
    Some (map (fun d => {| i_args := map (fun s => ATensor (TensorOfShape meta s d dev)) tensors ++ args; i_kwargs := k; raises := mem_set d errors |}) sorted_torch_types)).
  { intros tensors H. rewrite <- mapM_some. generalize sorted_torch_types. induction l0 as [|d r IH]; [reflexivity|]. cbn [mapM]. rewrite H. cbn [obind]. rewrite IH.
    unfold ErrorInvocation, Invocation. now destruct (mem_set d errors). }
  destruct shapes as [sh|], num as [n|].
  - split; [|intros (t & [[E _]|[E _]] & _); discriminate]. cbn. discriminate.
  - rewrite (G sh) by reflexivity. split; [intros E; injection E as <-; exists sh; auto|]. intros (t & [[E _]|[_ E]] & ->); [discriminate|]. now injection E as ->.
  - rewrite (G (repeat [1%Z] n)) by (intros d; cbn; f_equal; clear; induction n as [|n IH]; [reflexivity|cbn [repeat map]; now rewrite IH]). split.
    + intros E. injection E as <-. exists (repeat [1%Z] n). split; [left; eauto|reflexivity].
    + intros (t & [(_ & m & E & ->)|[E _]] & ->); [|discriminate]. now injection E as ->.
  - split; [|intros (t & [(_ & m & E & _)|[_ E]] & _); discriminate]. cbn. discriminate.
Qed.
Theorem C117_dtypes : NoDup sorted_torch_types /\ (forall d, In d sorted_torch_types <-> listed d) /\
  (forall p q a b, nth_error sorted_torch_types p = Some a -> nth_error sorted_torch_types q = Some b -> (p < q <-> priority b < priority a)).
Proof.
  split; [repeat constructor; cbn; intuition discriminate|]. split; [exact listed_iff|]. intros p q a b.
  do 12 (destruct p as [|p]; [intros E; injection E as <-; do 12 (destruct q as [|q]; [intros E; injection E as <-; cbn; lia|]); destruct q; discriminate|]). destruct p; discriminate.
Qed.

(** ** Two tensors *)
Definition of_two {S O K device} (meta : device) s1 s2 (dev : option device) (k : K) (d1 d2 : dtype) (r : bool) : invocation S O K device :=
  {| i_args := [ATensor (TensorOfShape meta s1 d1 dev); ATensor (TensorOfShape meta s2 d2 dev)]; i_kwargs := k; raises := r |}.
Definition two_shapes (shapes : option (list (list Z))) s1 s2 : Prop := shapes = Some [s1; s2] \/ shapes = None /\ s1 = [1%Z] /\ s2 = [1%Z].
Definition elements (s : option (list dtype)) : list dtype := match s with Some l => l | None => [] end.
(** The highest type that is in no set *)
Definition best (I' O' : list dtype) (c : dtype) : Prop := listed c /\ ~ In c I' /\ ~ In c O' /\ forall d, listed d -> priority c < priority d -> In d I' \/ In d O'.

Theorem C117_when_two_tensors : forall S O K device (meta : device) shapes dev I' O' (k : K),
  (exists l : list (invocation S O K device), check_two_tensor_op meta shapes dev I' O' k = Some l) <->
  (exists s1 s2, two_shapes shapes s1 s2) /\ (forall d, In d (elements I') -> In d (elements O') -> False) /\ (exists d, listed d /\ ~ In d (elements I') /\ ~ In d (elements O')).
Proof.
  intros S O K device meta shapes dev I' O' k. unfold check_two_tensor_op, two_shapes.
  assert (G : forall s1 s2, (exists l : list (invocation S O K device), (assert match I', O' with Some i, Some o => negb (existsb (fun d => mem d o) i) | _, _ => true end;
      do same <- check_tensors_with_the_same_dtype meta None (Some [s1; s2]) dev (Some (union I' O')) [] k;
      do varying <- varying_dtype meta s1 s2 dev I' (union I' O') k; Some (same ++ varying)) = Some l) <->
    (forall d, In d (elements I') -> In d (elements O') -> False) /\ (exists d, listed d /\ ~ In d (elements I') /\ ~ In d (elements O'))).
  { intros s1 s2. assert (D : match I', O' with Some i, Some o => negb (existsb (fun d => mem d o) i) | _, _ => true end = true <-> (forall d, In d (elements I') -> In d (elements O') -> False)).
    { destruct I' as [i|], O' as [o|]; cbn [elements]; try (split; [intros _ d A B; destruct A || destruct B|reflexivity]).
      rewrite negb_true_iff. split.
      - intros E d A B. assert (X : existsb (fun d => mem d o) i = true) by (apply existsb_exists; exists d; split; [exact A|now apply mem_iff]). congruence.
      - intros H. destruct (existsb _ i) eqn:E; [|reflexivity]. apply existsb_exists in E as (d & A & B). apply mem_iff in B. destruct (H d A B). }
    assert (N : (exists d, listed d /\ ~ In d (elements I') /\ ~ In d (elements O')) <-> constant_type (union I' O') sorted_torch_types <> None).
    { rewrite constant_none. unfold union. fold (elements I') (elements O'). split.
      - intros (d & L & N1 & N2) K'. apply listed_iff in L. apply K' in L. apply in_app_or in L. tauto.
      - intros N. destruct (constant_type (elements I' ++ elements O') sorted_torch_types) as [[c r]|] eqn:E; [|apply constant_none in E; contradiction].
        apply constant_is in E as (A & B & _); [|exact sorted_descending]. exists c. rewrite in_app_iff in B. apply listed_iff in A. tauto. }
    rewrite <- D, N. destruct (match I', O' with Some i, Some o => _ | _, _ => true end); cbn [guard obind].
    2: { split; [intros [l E]; discriminate|intros [E _]; discriminate]. }
    destruct (check_tensors_with_the_same_dtype meta None (Some [s1; s2]) dev (Some (union I' O')) [] k) as [sm|] eqn:E.
    2: { exfalso. assert (X : exists l, check_tensors_with_the_same_dtype (S := S) (O := O) meta None (Some [s1; s2]) dev (Some (union I' O')) [] k = Some l).
         { eexists. apply C117_same_dtype. exists [s1; s2]. split; [right; auto|reflexivity]. } destruct X as [l X]. congruence. }
    cbn [obind]. unfold varying_dtype. destruct (constant_type _ _); cbn [obind].
    - split; [intros _; split; [reflexivity|discriminate]|intros _; eauto].
    - split; [intros [l K']; discriminate|intros [_ K']; congruence]. }
  destruct shapes as [[|s1 [|s2 [|s3 r]]]|].
  - split; [intros [l E]; discriminate|intros ((a & b & [E|[E _]]) & _); discriminate].
  - split; [intros [l E]; discriminate|intros ((a & b & [E|[E _]]) & _); discriminate].
  - rewrite G. split; [intros H; split; [exists s1, s2; now left|exact H]|intros [_ H]; exact H].
  - split; [intros [l E]; discriminate|intros ((a & b & [E|[E _]]) & _); discriminate].
  - rewrite G. split; [intros H; split; [exists [1%Z], [1%Z]; now right|exact H]|intros [_ H]; exact H].
Qed.
(** The invocations are those of equal types, and those of the best type with the types that are not higher. *)
Theorem C117_two_tensors : forall S O K device (meta : device) shapes dev I' O' (k : K) l, check_two_tensor_op (S := S) (O := O) meta shapes dev I' O' k = Some l ->
  exists s1 s2 c, two_shapes shapes s1 s2 /\ best (elements I') (elements O') c /\ forall i, In i l <-> exists d1 d2 r, i = of_two meta s1 s2 dev k d1 d2 r /\ listed d1 /\ listed d2 /\
    (d1 = d2 /\ (r = true <-> In d1 (elements I') \/ In d1 (elements O')) \/
     d2 = c /\ priority d1 <= priority c /\ (r = true <-> In d1 (elements I')) \/
     d1 = c /\ priority d2 <= priority c /\ (r = true <-> In d2 (elements I'))).
Proof.
  intros S O K device meta shapes dev I' O' k l H. unfold check_two_tensor_op in H.
  assert (T : exists s1 s2, two_shapes shapes s1 s2 /\ (match shapes with Some l => l | None => [[1%Z]; [1%Z]] end) = [s1; s2]).
  { unfold two_shapes. destruct shapes as [[|s1 [|s2 [|]]]|]; try discriminate; eauto. exists [1%Z], [1%Z]. auto. }
  destruct T as (s1 & s2 & TS & E). rewrite E in H. cbv beta zeta iota in H. destruct (match I', O' with Some i, Some o => _ | _, _ => true end) in H; [|discriminate]. cbn [guard obind] in H.
  destruct (check_tensors_with_the_same_dtype meta None (Some [s1; s2]) dev (Some (union I' O')) [] k) as [sm|] eqn:ES in H; [|discriminate]. cbn [obind] in H.
  apply C117_same_dtype in ES as (ts & [[X _]|[_ X]] & ->); [discriminate|]. injection X as <-.
  unfold varying_dtype in H. destruct (constant_type (union I' O') sorted_torch_types) as [[c r]|] eqn:EC; [|discriminate]. cbn [obind fst snd] in H.
  assert (inj : forall X (x y : X), Some x = Some y -> y = x) by (intros X x y Q; congruence). apply inj in H. subst l.
  apply constant_is in EC as (C1 & C2 & C3 & C4); [|exact sorted_descending]. unfold union in *. fold (elements I') (elements O') in *. rewrite in_app_iff in C2.
  exists s1, s2, c. split; [exact TS|]. split.
  { split; [now apply listed_iff|]. split; [tauto|]. split; [tauto|]. intros d L P. apply in_app_or. apply C3; [now apply listed_iff|exact P]. }
  assert (MI : forall d, mem_set d I' = true <-> In d (elements I')).
  { intros d. rewrite mem_set_iff. destruct I' as [i|]; cbn [elements]; [split; [intros (m & Q & ?); injection Q as ->; assumption|eauto]|split; [intros (m & Q & _); discriminate|intros []]]. }
  assert (ME : forall d, mem_set d (Some (elements I' ++ elements O')) = true <-> In d (elements I') \/ In d (elements O')) by (intros d; cbn [mem_set]; rewrite mem_iff; apply in_app_iff).
  assert (BQ : forall (a b : bool), (a = true <-> b = true) -> a = b) by (intros [|] [|]; intuition congruence).
  intros i. rewrite in_app_iff, in_map_iff, in_flat_map. split.
  - intros [(d & <- & L)|(d & L & J)].
    + exists d, d, (mem_set d (Some (elements I' ++ elements O'))). apply listed_iff in L. split; [reflexivity|]. split; [exact L|]. split; [exact L|]. left. split; [reflexivity|apply ME].
    + apply C4 in L as [L P]. apply listed_iff in L, C1. destruct J as [<-|[<-|[]]].
      * exists d, c, (mem_set d I'). split; [now destruct (mem_set d I')|]. split; [exact L|]. split; [exact C1|]. right. left. split; [reflexivity|]. split; [exact P|apply MI].
      * exists c, d, (mem_set d I'). split; [now destruct (mem_set d I')|]. split; [exact C1|]. split; [exact L|]. right. right. split; [reflexivity|]. split; [exact P|apply MI].
  - intros (d1 & d2 & b & -> & L1 & L2 & [(<- & R)|[(-> & P & R)|(-> & P & R)]]).
    + left. exists d1. split; [|now apply listed_iff]. unfold of_two. f_equal. apply BQ. rewrite ME. tauto.
    + right. exists d1. split; [apply C4; split; [now apply listed_iff|exact P]|]. left. assert (b = mem_set d1 I') as -> by (apply BQ; rewrite MI; exact R). now destruct (mem_set d1 I').
    + right. exists d2. split; [apply C4; split; [now apply listed_iff|exact P]|]. right. left. assert (b = mem_set d2 I') as -> by (apply BQ; rewrite MI; exact R). now destruct (mem_set d2 I').
Qed.
(** The verdicts are right for operators that promote to the higher type. *)
Lemma higher_same d : higher d d = d.
Proof. unfold higher. now rewrite Nat.ltb_irrefl. Qed.
Lemma higher_le a b : priority a <= priority b -> listed a -> higher b a = b /\ higher a b = b.
Proof.
  intros L K. unfold higher. destruct (Nat.ltb_spec (priority b) (priority a)); [lia|]. split; [reflexivity|]. destruct (Nat.ltb_spec (priority a) (priority b)); [reflexivity|].
  unfold listed in K. destruct a, b; cbn in *; (reflexivity || lia).
Qed.
Theorem C117_verdicts_partial : forall S O K device (meta : device) shapes dev I' O' (k : K) l, check_two_tensor_op (S := S) (O := O) meta shapes dev I' O' k = Some l ->
  exists s1 s2, two_shapes shapes s1 s2 /\ forall i, In i l -> exists d1 d2, i = of_two meta s1 s2 dev k d1 d2 (raises i) /\
    (raises i = true <-> refuses higher (elements I') (elements O') d1 d2).
Proof.
  intros S O K device meta shapes dev I' O' k l H. destruct (C117_two_tensors _ _ _ _ _ _ _ _ _ _ _ H) as (s1 & s2 & c & TS & (B1 & B2 & B3 & B4) & M).
  exists s1, s2. split; [exact TS|]. intros i J. apply M in J as (d1 & d2 & r & -> & L1 & L2 & Q). exists d1, d2. split; [reflexivity|]. cbn [raises of_two]. unfold refuses.
  destruct Q as [(<- & R)|[(-> & P & R)|(-> & P & R)]].
  - rewrite higher_same, R. tauto.
  - destruct (higher_le d1 c P L1) as [_ ->]. rewrite R. tauto.
  - destruct (higher_le d2 c P L2) as [-> _]. rewrite R. tauto.
Qed.
(** They decide the behaviour of such operators on all pairs of types: operators for which the verdicts are right refuse the same types. *)
Theorem C117_verdicts_decide : forall S O K device (meta : device) shapes dev I' O' (k : K) l, check_two_tensor_op (S := S) (O := O) meta shapes dev I' O' k = Some l ->
  forall s1 s2, two_shapes shapes s1 s2 -> forall inputs outputs,
  (forall d1 d2 r, In (of_two meta s1 s2 dev k d1 d2 r) l -> (r = true <-> refuses higher inputs outputs d1 d2)) ->
  forall a b, listed a -> listed b -> (refuses higher (elements I') (elements O') a b <-> refuses higher inputs outputs a b).
Proof.
  intros S O K device meta shapes dev I' O' k l H s1 s2 TS inputs outputs V.
  destruct (C117_two_tensors _ _ _ _ _ _ _ _ _ _ _ H) as (s1' & s2' & c & TS' & (B1 & B2 & B3 & B4) & M).
  assert (s1' = s1 /\ s2' = s2) as [-> ->]. { destruct TS as [->|(-> & -> & ->)], TS' as [E|(E & -> & ->)]; try discriminate; [now injection E as -> ->|auto]. }
  assert (dec : forall s d, {In d s} + {~ In d s}) by (intros s d; apply in_dec, dtype_eq_dec).
  assert (bool_of : forall P : Prop, {P} + {~ P} -> exists r, r = true <-> P) by (intros P [p|p]; [exists true|exists false]; split; congruence || tauto).
  (* equal types *)
  assert (same : forall d, listed d -> (In d (elements I') \/ In d (elements O') <-> In d inputs \/ In d outputs)).
  { intros d L. destruct (bool_of (In d (elements I') \/ In d (elements O'))) as [r R]; [destruct (dec (elements I') d), (dec (elements O') d); tauto|].
    rewrite <- R. rewrite (V d d r). { unfold refuses. rewrite higher_same. tauto. } apply M. exists d, d, r. split; [reflexivity|]. split; [exact L|]. split; [exact L|]. left. auto. }
  assert (cin : ~ In c inputs /\ ~ In c outputs) by (assert (X := same c B1); tauto).
  assert (low : forall d, listed d -> priority d <= priority c -> (In d (elements I') <-> In d inputs)).
  { intros d L P. destruct (bool_of (In d (elements I'))) as [r R]; [apply dec|]. rewrite <- R. rewrite (V d c r).
    { unfold refuses. destruct (higher_le d c P L) as [_ ->]. tauto. } apply M. exists d, c, r. split; [reflexivity|]. split; [exact L|]. split; [exact B1|]. right. left. auto. }
  assert (sym : forall i o a b, listed a -> listed b -> refuses higher i o a b <-> refuses higher i o b a).
  { intros i o a b La Lb. unfold refuses. assert (higher a b = higher b a) as ->; [|tauto]. destruct (Nat.le_ge_cases (priority a) (priority b)) as [P|P].
    - destruct (higher_le a b P La) as [-> ->]. reflexivity.
    - destruct (higher_le b a P Lb) as [-> ->]. reflexivity. }
  assert (W : forall a b, listed a -> listed b -> priority b <= priority a -> (refuses higher (elements I') (elements O') a b <-> refuses higher inputs outputs a b)).
  { intros a b La Lb P. unfold refuses. destruct (higher_le b a P Lb) as [-> _]. destruct (Nat.le_gt_cases (priority a) (priority c)) as [PA|PA].
    - assert (X := low a La PA). assert (Y := low b Lb ltac:(lia)). assert (Z := same a La). tauto.
    - assert (X := B4 a La PA). assert (Z := same a La). tauto. }
  intros a b La Lb. destruct (Nat.le_ge_cases (priority b) (priority a)) as [P|P]; [now apply W|]. rewrite (sym _ _ a b), (sym inputs outputs a b) by assumption. now apply W.
Qed.
(** PyTorch promotes some pairs to a third type: two invocations that should succeed then fail. *)
Theorem C117_verdicts_refuted : exists outputs l d1 d2, check_two_tensor_op (S := unit) (O := unit) tt None None None (Some outputs) tt = Some l /\
  In (of_two tt [1%Z] [1%Z] None tt d1 d2 false) l /\ refuses promoted [] outputs d1 d2 /\ ~ refuses promoted [] outputs d1 d1 /\ ~ refuses promoted [] outputs d2 d2.
Proof.
  exists [Complex128; Complex64; Float64; Float32]. eexists. exists Float16, Bfloat16. split; [reflexivity|]. split; [cbn; tauto|]. split; [right; right; cbn; tauto|].
  split; intros [[]|[[]|K]]; cbn in K; intuition discriminate.
Qed.
(** Tensors in keyword arguments are not translated. *)
Theorem C117_keyword_tensors : forall S O K device (int : Z -> S) (code : dtype -> O) (l : list (arg S (tensor_of_shape device) O)) (k k' : K),
  to_shape_function_args int (Invocation l k) = to_shape_function_args int (Invocation l k') /\ i_kwargs (Invocation l k) = k /\ i_kwargs (ErrorInvocation l k) = k /\
  raises (Invocation l k) = false /\ raises (ErrorInvocation l k) = true.
Proof. intros. repeat split. Qed.

Example C117_nonvacuous :
  let inv := Invocation (S := Z) (O := dtype) (device := bool) [ATensor (TensorOfShape false [2; 3]%Z Float32 None); AList [ATensor (ZeroDTensorWithDtype false Int8 None); AScalar 7%Z]] tt in
  to_shape_function_args (fun z => z) inv = Some (AList [AList [AScalar 2%Z; AScalar 3%Z]; AList [AList []; AScalar 7%Z]]) /\
  to_dtype_function_args (fun z => z) (fun d => d) inv = Some (AList [ATuple [AScalar 2%Z; AOther Float32]; AList [ATuple [AScalar 0%Z; AOther Int8]; AScalar 7%Z]]) /\
  option_map (fun l => map raises l) (check_two_tensor_op (S := Z) (O := dtype) false None None (Some [Complex64; Bool]) (Some [Complex128]) tt) =
    Some ([true; true] ++ repeat false 9 ++ [true] ++ repeat false 18 ++ [true; true]) /\
  check_two_tensor_op (S := Z) (O := dtype) false None None (Some [Bool]) (Some [Bool]) tt = None /\
  best [Complex64; Bool] [Complex128] Float64.
Proof.
  cbv zeta. split; [reflexivity|]. split; [reflexivity|]. split; [reflexivity|]. split; [reflexivity|].
  split; [cbv; lia|]. split; [cbn; intuition discriminate|]. split; [cbn; intuition discriminate|]. intros d _ P. destruct d; cbn in *; try lia; tauto.
Qed.
Print Assumptions C117_arguments.
Print Assumptions C117_same_dtype.
Print Assumptions C117_when_two_tensors.
Print Assumptions C117_two_tensors.
Print Assumptions C117_verdicts_partial.
Print Assumptions C117_verdicts_decide.
