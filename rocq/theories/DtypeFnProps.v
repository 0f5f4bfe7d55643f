(** The dtype functions are right about dtypes, operator by operator. *)
From Coq Require Import ZArith Bool String Lia Permutation List.
From Verif Require Import Prelude DtypeModel DtypeSpec DtypeProps DtypeFnModel DtypeFnSpec.
Import ListNotations.
Open Scope string_scope.
Open Scope list_scope.
Open Scope Z_scope.

(** ** Which body each function has *)
Ltac bodies := repeat (apply Forall_cons; [vm_compute; reflexivity|]); apply Forall_nil.
Lemma b_binary_promoting : Forall (fun n => lookup n dtype_functions = Some Promote2) binary_promoting.
Proof. bodies. Qed.
Lemma b_ternary_promoting : Forall (fun n => lookup n dtype_functions = Some Promote3) ternary_promoting.
Proof. bodies. Qed.
Lemma b_list_promoting : Forall (fun n => lookup n dtype_functions = Some PromoteAll) list_promoting.
Proof. bodies. Qed.
Lemma b_scalar_promoting : Forall (fun n => lookup n dtype_functions = Some PromoteScalar) scalar_promoting.
Proof. bodies. Qed.
Lemma b_sums : Forall (fun n => lookup n dtype_functions = Some Sum) sums.
Proof. bodies. Qed.
Lemma b_means : Forall (fun n => lookup n dtype_functions = Some Mean) means.
Proof. bodies. Qed.
Lemma b_deviations : Forall (fun n => lookup n dtype_functions = Some Std) deviations.
Proof. bodies. Qed.
Lemma b_prims_sums : Forall (fun n => lookup n dtype_functions = Some PrimsSum) prims_sums.
Proof. bodies. Qed.
Lemma b_any_all : Forall (fun n => lookup n dtype_functions = Some Any) any_all.
Proof. bodies. Qed.
Lemma b_norms : Forall (fun n => lookup n dtype_functions = Some LinalgNorm) norms.
Proof. bodies. Qed.
Lemma b_with_indices : Forall (fun n => lookup n dtype_functions = Some WithIndex) with_indices.
Proof. bodies. Qed.
Lemma b_var_means : Forall (fun n => lookup n dtype_functions = Some VarMean) var_means.
Proof. bodies. Qed.
Lemma b_absolutes : Forall (fun n => lookup n dtype_functions = Some Abs) absolutes.
Proof. bodies. Qed.
Lemma b_float_creators : Forall (fun n => lookup n dtype_functions = Some Create) float_creators.
Proof. bodies. Qed.
Lemma b_int_creators : Forall (fun n => lookup n dtype_functions = Some CreateInt64) int_creators.
Proof. bodies. Qed.
Lemma b_normal_creators : Forall (fun n => lookup n dtype_functions = Some CreateInexact) normal_creators.
Proof. bodies. Qed.
Lemma b_ranges : Forall (fun n => lookup n dtype_functions = Some Arange) ranges.
Proof. bodies. Qed.
Lemma b_likes : Forall (fun n => lookup n dtype_functions = Some Like) likes.
Proof. bodies. Qed.
Lemma b_conversions : Forall (fun n => lookup n dtype_functions = Some Given) conversions.
Proof. bodies. Qed.
Lemma b_conversions_like : Forall (fun n => lookup n dtype_functions = Some Second) conversions_like.
Proof. bodies. Qed.
Lemma b_number_tensors : Forall (fun n => lookup n dtype_functions = Some NumberDtype) number_tensors.
Proof. bodies. Qed.
Lemma b_predicates : Forall (fun n => lookup n dtype_functions = Some AlwaysBool) predicates.
Proof. bodies. Qed.
Lemma b_infinity_tests : Forall (fun n => lookup n dtype_functions = Some RealBool) infinity_tests.
Proof. bodies. Qed.
Lemma b_index_ops : Forall (fun n => lookup n dtype_functions = Some AlwaysInt64) index_ops.
Proof. bodies. Qed.
Lemma b_to_float : Forall (fun n => lookup n dtype_functions = Some AlwaysFloat32) to_float.
Proof. bodies. Qed.
Lemma b_keeping : Forall (fun n => lookup n dtype_functions = Some Same) keeping.
Proof. bodies. Qed.
Lemma b_equal_dtypes : Forall (fun n => lookup n dtype_functions = Some SameTwo) equal_dtypes.
Proof. bodies. Qed.
Lemma b_embedding_bags : Forall (fun n => lookup n dtype_functions = Some EmbeddingBag) embedding_bags.
Proof. bodies. Qed.
Lemma b_not_uint8 : Forall (fun n => lookup n dtype_functions = Some NotUint8) not_uint8.
Proof. bodies. Qed.
Lemma b_not_integer : Forall (fun n => lookup n dtype_functions = Some NotInteger) not_integer.
Proof. bodies. Qed.
Lemma b_not_bool : Forall (fun n => lookup n dtype_functions = Some NotBool) not_bool.
Proof. bodies. Qed.
Lemma b_bool_to_int64 : Forall (fun n => lookup n dtype_functions = Some BoolToInt64) bool_to_int64.
Proof. bodies. Qed.
Lemma b_fake_quantizers : Forall (fun n => lookup n dtype_functions = Some FakeQuant) fake_quantizers.
Proof. bodies. Qed.
Lemma b_fake_quantizers_mask : Forall (fun n => lookup n dtype_functions = Some FakeQuantMask) fake_quantizers_mask.
Proof. bodies. Qed.
Lemma b_losses : Forall (fun n => lookup n dtype_functions = Some PromoteInexact) losses.
Proof. bodies. Qed.
Lemma b_convolutions : Forall (fun n => lookup n dtype_functions = Some ConvSame) convolutions.
Proof. bodies. Qed.
Lemma b_floor_divisions : Forall (fun n => lookup n dtype_functions = Some FloorDivide) floor_divisions.
Proof. bodies. Qed.
Lemma b_ffts : Forall (fun n => lookup n dtype_functions = Some Fft) ffts.
Proof. bodies. Qed.
Lemma b_stfts : Forall (fun n => lookup n dtype_functions = Some Stft) stfts.
Proof. bodies. Qed.
Lemma b_quantized_makers : Forall (fun n => lookup n dtype_functions = Some Quantized) quantized_makers.
Proof. bodies. Qed.
Lemma b_softplus_like : Forall (fun n => lookup n dtype_functions = Some Softplus) softplus_like.
Proof. bodies. Qed.
Lemma b_transcendental : Forall (fun n => lookup n dtype_functions = Some Floating \/ lookup n dtype_functions = Some IntegerToFloat) transcendental.
Proof. repeat (apply Forall_cons; [first [left; vm_compute; reflexivity | right; vm_compute; reflexivity]|]). apply Forall_nil. Qed.
(** Every function is listed once, so a function's body is the one listed with it. *)
Lemma functions_listed_once : NoDup (map fst dtype_functions).
Proof.
  assert (H : forall l : list string, forallb (fun '(n, r) => negb (existsb (String.eqb n) r))
    ((fix tails l := match l with [] => [] | n :: r => (n, r) :: tails r end) l) = true -> NoDup l).
  { induction l as [|n l IH]; intros H; [constructor|]. simpl in H. apply andb_true_iff in H. destruct H as [H1 H2]. constructor; auto.
    intros I. apply negb_true_iff, not_true_iff_false in H1. apply H1. apply existsb_exists. exists n. split; auto. apply String.eqb_refl. }
  apply H. vm_compute. reflexivity.
Qed.
(** Replaces the function of a listed operator by its body. *)
Ltac body L := unfold dtype_fn; match goal with Hn : In ?n _ |- _ => rewrite (proj1 (Forall_forall _ _) L n Hn) end; cbn [obind run].
Ltac named := unfold dtype_fn; repeat match goal with |- context [lookup ?n dtype_functions] =>
  let r := eval vm_compute in (lookup n dtype_functions) in change (lookup n dtype_functions) with r end; cbn [obind run].
Ltac operands := unfold with1, with2, with3, num1, num2;
  repeat match goal with
  | H : tensors _ = _ |- _ => rewrite H; clear H
  | H : numbers _ = _ |- _ => rewrite H; clear H
  | H : dtype _ = _ |- _ => rewrite H; clear H
  | H : flag _ = _ |- _ => rewrite H; clear H
  | H : mode _ = _ |- _ => rewrite H; clear H
  end; cbn [fst snd].
Lemma mem_iff : forall (t : scalar_type) l, In t l <-> existsb (st_eqb t) l = true.
Proof.
  intros t l. rewrite existsb_exists. split; [intros H; exists t; split; auto; now apply st_eqb_eq|].
  intros (u & H & E). apply st_eqb_eq in E. now subst.
Qed.
Lemma integral_iff : forall t, integral t <-> is_integer_dtype t = true.
Proof. intros t. apply mem_iff. Qed.
Lemma floating_iff : forall t, floating t <-> is_float_dtype t = true.
Proof. intros t. apply mem_iff. Qed.
Lemma complex_iff : forall t, complex t <-> is_complex_dtype t = true.
Proof. intros t. apply mem_iff. Qed.
Lemma float_result_iff : forall t r, float_result t r <-> r = if is_integer_dtype t then Float else t.
Proof. intros t r. unfold float_result. rewrite integral_iff. destruct (is_integer_dtype t); intuition congruence. Qed.
Lemma real_part_iff : forall t r, real_part t r <-> r = std_dtype t.
Proof. intros t r. unfold real_part. rewrite complex_iff. destruct t; vm_compute; intuition congruence. Qed.
Lemma single : forall (v : scalar_type) res, (exists r, r = v /\ res = [r]) <-> res = [v].
Proof. intros v res. split; [intros (r & -> & ->); reflexivity|intros ->; eauto]. Qed.
Lemma one_eq : forall v res, one v = Some res <-> res = [v].
Proof. intros. unfold one. split; congruence. Qed.
Ltac booleans := try setoid_rewrite float_result_iff; try setoid_rewrite real_part_iff; try rewrite single in *;
  rewrite ?integral_iff, ?floating_iff, ?complex_iff, <- ?ordb_iff, ?mem_iff in *.
Ltac finite := booleans; repeat match goal with
    | H : context [?t] |- _ => is_var t; match type of t with scalar_type => destruct t end
    | |- context [?t] => is_var t; match type of t with scalar_type => destruct t end end;
  vm_compute in *; intuition congruence.

(** ** Promotion *)
Lemma tensor_eq : forall a, tensor_op a = tensor a.
Proof. reflexivity. Qed.
Lemma number_eq : forall n o, number_is n o -> number_op n = o.
Proof. intros n o []; reflexivity. Qed.
Lemma valid_tensor : forall a, ok a -> valid_operand (tensor a).
Proof. intros a [R O]. split; auto. Qed.
Lemma valid_number : forall n o, number_is n o -> valid_operand o.
Proof. intros n o []; split; [unfold ordinary; simpl; tauto|now left|unfold ordinary; simpl; tauto|now right]. Qed.
Lemma promote_iff : forall l r, l <> [] -> Forall valid_operand l -> (promote l = Some r <-> promoted l r).
Proof.
  intros l r Hl F. unfold promote. split.
  - destruct (decompose_promote_dtypes (map fst l) (map (fun o => code (snd o)) l)) as [c|] eqn:E; [|discriminate]. cbn [obind]. intros D.
    apply C50_promote_dtypes_spec in E; auto. destruct E as (d & z & n & lo & r' & A1 & A2 & A3 & A4 & A5 & ->).
    rewrite decode_code in D. injection D as <-. exists d, z, n, lo. auto.
  - intros (d & z & n & lo & A1 & A2 & A3 & A4 & A5).
    assert (E : decompose_promote_dtypes (map fst l) (map (fun o => code (snd o)) l) = Some (code r)).
    { apply C50_promote_dtypes_spec; auto. exists d, z, n, lo, r. auto 6. }
    rewrite E. cbn [obind]. apply decode_code.
Qed.
Lemma promote_exists : forall l, l <> [] -> Forall valid_operand l -> exists r, promote l = Some r /\ ordinary r.
Proof.
  intros l Hl F. destruct (types_ordinary l F) as (Fd & Fz & Fn). specialize (Fn (only_numbers l)).
  destruct (join_opt _ Fd) as [Od Ld], (join_opt _ Fz) as [Oz Lz], (join_opt _ Fn) as [On Ln].
  destruct (combine_opt _ _ Oz On) as (low & _ & Olow & R1). destruct (combine_opt _ _ Od Olow) as (r & _ & Or & R2).
  destruct Or as [-> |Or].
  - exfalso. change (toopt Undefined) with (@None scalar_type) in R2.
    assert (N : forall h l' : option scalar_type, outranks_opt h l' None -> h = None /\ l' = None).
    { intros [h|] [l'|]; simpl; intros Hx; try discriminate; auto. destruct Hx as (? & ? & _). discriminate. }
    apply N in R2. destruct R2 as [D0 L0]. rewrite L0 in R1. apply N in R1. destruct R1 as [Z0 W0].
    rewrite D0 in Ld. rewrite Z0 in Lz. rewrite W0 in Ln.
    assert (E : forall l' : list scalar_type, lub_opt l' None -> l' = []) by (intros []; simpl; tauto).
    apply E in Ld, Lz, Ln. apply map_eq_nil in Ln. destruct l as [|[rk t] l]; [easy|].
    inversion_clear F as [|? ? [_ Hr] _]. unfold dim_types, zero_types, number_types in *. cbn [filter fst snd] in *. destruct rk as [k|]; [|discriminate].
    destruct (Z.ltb_spec 0 k); [discriminate|]. destruct (Z.eqb_spec k 0); [discriminate|lia].
  - exists r. split; auto. apply promote_iff; auto. rewrite (toopt_ord r) in R2 by auto. do 4 eexists. eauto.
Qed.
Lemma promoted_unique : forall l r r', promoted l r -> promoted l r' -> r = r'.
Proof.
  intros l r r' (d & z & n & lo & A1 & A2 & A3 & A4 & A5) (d' & z' & n' & lo' & B1 & B2 & B3 & B4 & B5).
  rewrite (lub_opt_unique _ _ _ A1 B1), (lub_opt_unique _ _ _ A2 B2), (lub_opt_unique _ _ _ A3 B3) in *.
  rewrite (outranks_opt_unique _ _ _ _ A4 B4) in *. pose proof (outranks_opt_unique _ _ _ _ A5 B5). congruence.
Qed.
Lemma filter_permutation : forall A (f : A -> bool) l l', Permutation l l' -> Permutation (filter f l) (filter f l').
Proof.
  intros A f l l' P. induction P as [|a l l' P IH|a b l|l l' l'' P1 IH1 P2 IH2]; simpl.
  - constructor.
  - destruct (f a); auto.
  - destruct (f a), (f b); auto; apply perm_swap.
  - eapply perm_trans; eauto.
Qed.
Lemma lub_opt_permutation : forall l l' r, Permutation l l' -> lub_opt l r -> lub_opt l' r.
Proof.
  intros l l' r P H. destruct l as [|a l].
  - apply Permutation_nil in P. now subst.
  - destruct l' as [|b l']; [apply Permutation_sym, Permutation_nil in P; discriminate|]. destruct r as [r|]; [|destruct H].
    destruct H as [U M]. split.
    + intros x Hx. apply U. eapply Permutation_in; [apply Permutation_sym; exact P|exact Hx].
    + intros c Hc. apply M. intros x Hx. apply Hc. eapply Permutation_in; eauto.
Qed.
Lemma only_numbers_permutation : forall l l', Permutation l l' -> only_numbers l = only_numbers l'.
Proof.
  intros l l' P. unfold only_numbers. apply eq_true_iff_eq. rewrite !forallb_forall. split; intros H x Hx; apply H; [apply Permutation_sym in P|];
    eapply Permutation_in; eauto.
Qed.
Lemma promoted_permutation : forall l l' r, Permutation l l' -> promoted l r -> promoted l' r.
Proof.
  intros l l' r P (d & z & n & lo & A1 & A2 & A3 & A4 & A5). exists d, z, n, lo. repeat split; auto.
  - eapply lub_opt_permutation; [|exact A1]. apply Permutation_map, filter_permutation, P.
  - eapply lub_opt_permutation; [|exact A2]. apply Permutation_map, filter_permutation, P.
  - rewrite <- (only_numbers_permutation l l' P). eapply lub_opt_permutation; [|exact A3].
    apply Permutation_map, Permutation_map, filter_permutation, P.
Qed.
(** A promotion followed by a function of the promoted dtype. *)
Lemma promote_then : forall l (f : scalar_type -> option (list scalar_type)) res, l <> [] -> Forall valid_operand l ->
  ((do r <- promote l; f r) = Some res <-> exists r, promoted l r /\ ordinary r /\ f r = Some res).
Proof.
  intros l f res Hl F. destruct (promote_exists l Hl F) as (r & E & O). split.
  - rewrite E. cbn [obind]. intros H. exists r. split; [now apply promote_iff|auto].
  - intros (r' & P & _ & H). apply promote_iff in P; auto. rewrite P. exact H.
Qed.
Ltac valid := first [discriminate | repeat constructor; first [eapply valid_tensor; eassumption | eapply valid_number; eassumption]].
Ltac valid_all := repeat (apply Forall_cons; [first [eapply valid_tensor; eassumption | eapply valid_number; eassumption]|]); apply Forall_nil.
Ltac promotion := change tensor_op with tensor; rewrite promote_then by first [discriminate | valid_all].
Ltac each := split; [intros (r & P & O & H); exists r | intros (r & P & H); exists r].
Lemma promoted_ordinary : forall l r, l <> [] -> Forall valid_operand l -> promoted l r -> ordinary r.
Proof. intros l r Hl F P. destruct (promote_exists l Hl F) as (r' & E & O). apply promote_iff in E; auto. now rewrite (promoted_unique _ _ _ P E). Qed.

(** ** C68: floating point results *)
Theorem C68_transcendental : forall n x k t rest res, In n transcendental -> tensors x = (k, t) :: rest -> ordinary t ->
  (dtype_fn n x = Some res <-> exists r, float_result t r /\ res = [r]).
Proof.
  intros n x k t rest res Hn Hx Ho. unfold dtype_fn. pose proof (proj1 (Forall_forall _ _) b_transcendental n Hn) as B. cbv beta in B. clear Hn.
  destruct B as [-> | ->]; cbn [obind run]; operands; finite.
Qed.
Theorem C68_rad2deg : forall x k t rest res, tensors x = (k, t) :: rest ->
  (dtype_fn "aten.rad2deg" x = Some res <-> (integral t \/ floating t) /\ exists r, float_result t r /\ res = [r]).
Proof. intros x k t rest res Hx. named. operands. finite. Qed.
Theorem C68_softshrink : forall x k t rest res, tensors x = (k, t) :: rest -> ordinary t ->
  (dtype_fn "aten.softshrink" x = Some res <-> ~ integral t /\ res = [t]).
Proof. intros x k t rest res Hx Ho. named. operands. finite. Qed.
Theorem C68_frobenius_norm : forall x k t rest res, tensors x = (k, t) :: rest -> ordinary t ->
  (dtype_fn "aten.frobenius_norm.dim" x = Some res <-> ~ integral t /\ exists r, real_part t r /\ res = [r]).
Proof. intros x k t rest res Hx Ho. named. operands. finite. Qed.
(** Division and arctangent: promote, then as the functions above. *)
Lemma promote_float : forall l res (f : scalar_type -> scalar_type), l <> [] -> Forall valid_operand l ->
  (forall r, ordinary r -> f r = if is_integer_dtype r then Float else r) ->
  ((do r <- promote l; one (f r)) = Some res <-> exists p r, promoted l p /\ float_result p r /\ res = [r]).
Proof.
  intros l res f Hl F Hf. rewrite promote_then by auto. split.
  - intros (r & P & O & H). exists r, (f r). split; auto. rewrite float_result_iff. split; auto. now apply one_eq.
  - intros (p & r & P & H & ->). pose proof (promoted_ordinary l p Hl F P) as O. exists p. split; auto. split; auto. apply one_eq.
    apply float_result_iff in H. now rewrite H, Hf.
Qed.
Lemma quotient_float : forall r, ordinary r -> quotient false r = if is_integer_dtype r then Float else r.
Proof. intros r O. finite. Qed.
Theorem C68_division : forall n x a b rest res, In n ["aten.div.Tensor"; "aten.atan2"] -> tensors x = a :: b :: rest -> ok a -> ok b ->
  (dtype_fn n x = Some res <-> exists p r, promoted [tensor a; tensor b] p /\ float_result p r /\ res = [r]).
Proof.
  intros n x a b rest res Hn Hx Ha Hb. destruct Hn as [<- |[<- |[]]]; named; operands; change tensor_op with tensor.
  - apply promote_float; [discriminate|valid_all|exact quotient_float].
  - apply (promote_float _ _ (fun r => if is_integer_dtype r then Float else r)); [discriminate|valid_all|auto].
Qed.
Theorem C68_division_by_number : forall x a n o rest res, tensors x = [a] -> numbers x = n :: rest -> ok a -> number_is n o ->
  (dtype_fn "aten.div.Scalar" x = Some res <-> exists p r, promoted [tensor a; o] p /\ float_result p r /\ res = [r]).
Proof.
  intros x a n o rest res Hx Hn Ha Ho. named. operands. rewrite (number_eq n o Ho), tensor_eq.
  apply (promote_float _ _ (fun r => if is_integer_dtype r then Float else r)); [discriminate|valid_all|auto].
Qed.
(** Rounded division keeps the promoted dtype; plain division is the same as without a mode. *)
Theorem C68_division_modes : forall x a b rest, tensors x = a :: b :: rest -> ok a -> ok b ->
  (mode x = None -> dtype_fn "aten.div.Tensor_mode" x = dtype_fn "aten.div.Tensor" x) /\
  (mode x = Some Floor -> dtype_fn "aten.div.Tensor_mode" x = dtype_fn "aten.floor_divide" x) /\
  (mode x = Some Trunc -> forall res, dtype_fn "aten.div.Tensor_mode" x = Some res <-> exists r, promoted [tensor a; tensor b] r /\ res = [r]).
Proof.
  intros x a b rest Hx Ha Hb. repeat split.
  - intros Hm. named. operands. reflexivity.
  - intros Hm. named. operands. reflexivity.
  - intros H0. revert H0. named. operands. cbn [is_mode]. promotion. intros (r & P & O & H). exists r. split; auto.
    unfold quotient in H. rewrite orb_true_r in H. now injection H.
  - intros H0. revert H0. named. operands. cbn [is_mode]. promotion. intros (r & P & ->). exists r. split; auto. split.
    + eapply promoted_ordinary; [| |exact P]; [discriminate|valid_all].
    + unfold quotient. now rewrite orb_true_r.
Qed.
Theorem C68_division_by_number_modes : forall x a n o rest, tensors x = [a] -> numbers x = n :: rest -> ok a -> number_is n o ->
  (mode x = None -> dtype_fn "aten.div.Scalar_mode" x = dtype_fn "aten.div.Scalar" x) /\
  (mode x = Some Floor -> dtype_fn "aten.div.Scalar_mode" x = dtype_fn "aten.floor_divide.Scalar" x) /\
  (mode x = Some Trunc -> forall res, dtype_fn "aten.div.Scalar_mode" x = Some res <-> exists r, promoted [tensor a; o] r /\ res = [r]).
Proof.
  intros x a n o rest Hx Hn Ha Ho.
  assert (SW : promote [o; tensor a] = promote [tensor a; o]).
  { assert (V1 : Forall valid_operand [o; tensor a]) by valid_all. assert (V2 : Forall valid_operand [tensor a; o]) by valid_all.
    destruct (promote_exists [o; tensor a] ltac:(discriminate) V1) as (r & E & _). rewrite E. symmetry. apply promote_iff; auto; [discriminate|].
    apply promoted_permutation with (l := [o; tensor a]); [apply perm_swap|]. apply promote_iff; auto. discriminate. }
  split; [|split].
  - intros Hm. named. operands. cbn [is_mode]. rewrite (number_eq n o Ho), tensor_eq, SW.
    destruct (promote_exists [tensor a; o] ltac:(discriminate) ltac:(valid_all)) as (r & -> & O). cbn [obind].
    rewrite quotient_float by auto. reflexivity.
  - intros Hm. named. operands. reflexivity.
  - intros Hm res. named. operands. cbn [is_mode]. rewrite (number_eq n o Ho), tensor_eq, SW, promote_then by first [discriminate|valid_all].
    unfold quotient. split.
    + intros (r & P & O & H). exists r. split; auto. rewrite orb_true_r in H. now injection H.
    + intros (r & P & ->). exists r. split; auto. split; [eapply promoted_ordinary; [| |exact P]; [discriminate|valid_all]|now rewrite orb_true_r].
Qed.
(** copysign: integers give the default dtype, everything else promotes. *)
Theorem C68_copysign : forall x a b rest res, tensors x = a :: b :: rest -> ok a -> ok b ->
  (dtype_fn "aten.copysign.Tensor" x = Some res <->
   exists r, res = [r] /\ ((integral (snd a) /\ integral (snd b) /\ r = Float) \/ (~ (integral (snd a) /\ integral (snd b)) /\ promoted [tensor a; tensor b] r))).
Proof.
  intros x a b rest res Hx Ha Hb. named. operands.
  assert (I : forall t, is_integer_dtype t = true <-> integral t) by (intros t; now rewrite integral_iff).
  destruct (is_integer_dtype (snd a) && is_integer_dtype (snd b)) eqn:E.
  - apply andb_true_iff in E. destruct E as [E1 E2]. apply I in E1, E2. split.
    + intros [= <-]. exists Float. auto.
    + intros (r & -> & [(_ & _ & ->)|[N _]]); [reflexivity|tauto].
  - assert (N : ~ (integral (snd a) /\ integral (snd b))).
    { intros [A B]. apply I in A, B. rewrite A, B in E. discriminate. }
    promotion. split.
    + intros (r & P & _ & H). exists r. split; [now injection H|auto].
    + intros (r & -> & [(A & B & _)|[_ P]]); [tauto|]. exists r. split; auto. split; [|reflexivity].
      eapply promoted_ordinary; [| |exact P]; [discriminate|valid_all].
Qed.
(** The same for ldexp except that float64 with complex64 gives complex64. *)
Theorem C68_ldexp : forall x a b rest, tensors x = a :: b :: rest ->
  ~ (snd a = Double /\ complex (snd b)) -> ~ (complex (snd a) /\ snd b = Double) ->
  dtype_fn "aten.ldexp.Tensor" x = dtype_fn "aten.copysign.Tensor" x.
Proof.
  intros x a b rest Hx N1 N2. named. operands.
  assert (C : forall t, is_complex_dtype t = true <-> complex t) by (intros t; now rewrite complex_iff).
  destruct (st_eqb (snd a) Double && is_complex_dtype (snd b)) eqn:E1.
  { apply andb_true_iff in E1. destruct E1 as [A B]. apply st_eqb_eq in A. apply C in B. tauto. }
  destruct (is_complex_dtype (snd a) && st_eqb (snd b) Double) eqn:E2; [|reflexivity].
  apply andb_true_iff in E2. destruct E2 as [A B]. apply st_eqb_eq in B. apply C in A. tauto.
Qed.
Theorem C68_ldexp_double_complex_refuted : forall x k l rest, tensors x = (k, Double) :: (l, ComplexFloat) :: rest -> 0 < k -> 0 < l ->
  dtype_fn "aten.ldexp.Tensor" x = Some [ComplexFloat] /\ promoted [tensor (k, Double); tensor (l, ComplexFloat)] ComplexDouble.
Proof.
  intros x k l rest Hx Hk Hl. split; [named; operands; reflexivity|].
  exists (Some ComplexDouble), None, None, None. unfold dim_types, zero_types, number_types, tensor. cbn [fst snd filter].
  destruct (Z.ltb_spec 0 k); [|lia]. destruct (Z.ltb_spec 0 l); [|lia]. destruct (Z.eqb_spec k 0); [lia|]. destruct (Z.eqb_spec l 0); [lia|].
  cbn [map]. repeat split.
  - intros y [<- |[<- |[]]]; apply leb_le; reflexivity.
  - intros c Hc. pose proof (Hc Double (or_introl eq_refl)) as A. pose proof (Hc ComplexFloat (or_intror (or_introl eq_refl))) as B.
    apply le_leb in A, B. apply leb_le. destruct c; try discriminate; reflexivity.
Qed.
Theorem C68_ldexp_double_complex : forall x k l c rest, complex c ->
  (tensors x = (k, Double) :: (l, c) :: rest -> dtype_fn "aten.ldexp.Tensor" x = Some [c]) /\
  (tensors x = (k, c) :: (l, Double) :: rest -> dtype_fn "aten.ldexp.Tensor" x = Some [c]).
Proof. intros x k l c rest [<- |[<- |[]]]; split; intros Hx; named; operands; reflexivity. Qed.
(** softplus and prims.sqrt keep the integers. *)
Theorem C68_softplus_keeps_integers_refuted : forall n x k t rest, In n softplus_like -> tensors x = (k, t) :: rest -> ordinary t ->
  dtype_fn n x = Some [t].
Proof. intros n x k t rest Hn Hx Ho. body b_softplus_like. operands. clear Hn. finite. Qed.
Example C68_nonvacuous :
  dtype_fn "aten.tanh" {| tensors := [(2, Long)]; numbers := []; dtype := None; flag := None; mode := None |} = Some [Float] /\
  dtype_fn "aten.div.Tensor" {| tensors := [(2, Long); (0, BFloat16)]; numbers := []; dtype := None; flag := None; mode := None |} = Some [BFloat16] /\
  dtype_fn "aten.rad2deg" {| tensors := [(2, ComplexFloat)]; numbers := []; dtype := None; flag := None; mode := None |} = None /\
  dtype_fn "prims.sqrt" {| tensors := [(1, Int)]; numbers := []; dtype := None; flag := None; mode := None |} = Some [Int].
Proof. vm_compute. auto. Qed.

(** ** C69: promotion *)
Theorem C69_two_tensors : forall n x a b rest res, In n binary_promoting -> tensors x = a :: b :: rest -> ok a -> ok b ->
  (dtype_fn n x = Some res <-> exists r, promoted [tensor a; tensor b] r /\ res = [r]).
Proof.
  intros n x a b rest res Hn Hx Ha Hb. body b_binary_promoting. operands. promotion. split.
  - intros (r & P & _ & H). exists r. split; [auto|now injection H].
  - intros (r & P & ->). exists r. split; auto. split; [eapply promoted_ordinary; [| |exact P]; [discriminate|valid_all]|reflexivity].
Qed.
Theorem C69_three_tensors : forall n x a b c rest res, In n ternary_promoting -> tensors x = a :: b :: c :: rest -> ok a -> ok b -> ok c ->
  (dtype_fn n x = Some res <-> exists r, promoted [tensor a; tensor b; tensor c] r /\ res = [r]).
Proof.
  intros n x a b c rest res Hn Hx Ha Hb Hc. body b_ternary_promoting. operands. promotion. split.
  - intros (r & P & _ & H). exists r. split; [auto|now injection H].
  - intros (r & P & ->). exists r. split; auto. split; [eapply promoted_ordinary; [| |exact P]; [discriminate|valid_all]|reflexivity].
Qed.
Lemma valid_tensors : forall l, Forall ok l -> Forall valid_operand (map tensor l).
Proof. intros l F. induction F; constructor; auto. now apply valid_tensor. Qed.
Theorem C69_list_of_tensors : forall n x res, In n list_promoting -> Forall ok (tensors x) ->
  (dtype_fn n x = Some res <-> tensors x <> [] /\ exists r, promoted (map tensor (tensors x)) r /\ res = [r]).
Proof.
  intros n x res Hn F. body b_list_promoting. change tensor_op with tensor. destruct (tensors x) as [|a l] eqn:E.
  - split; [discriminate|intros [H _]; now elim H].
  - assert (G : guard (negb (zlen (a :: l) =? 0)) = Some tt) by (rewrite guard_true; apply negb_true_iff; unfold zlen; simpl length; destruct (Z.eqb_spec (Z.of_nat (S (length l))) 0); [lia|reflexivity]).
    rewrite G. cbn [obind]. rewrite promote_then by first [discriminate|now apply valid_tensors]. split.
    + intros (r & P & _ & H). split; [discriminate|]. exists r. split; [auto|now injection H].
    + intros (_ & r & P & ->). exists r. split; auto. split; [eapply promoted_ordinary; [| |exact P]; [discriminate|now apply valid_tensors]|reflexivity].
Qed.
Theorem C69_tensor_and_number : forall n x a k o rest rest' res, In n scalar_promoting -> tensors x = a :: rest -> numbers x = k :: rest' ->
  ok a -> number_is k o ->
  (dtype_fn n x = Some res <-> exists r, promoted [tensor a; o] r /\ res = [r]).
Proof.
  intros n x a k o rest rest' res Hn Hx Hy Ha Hk. body b_scalar_promoting. operands. rewrite (number_eq k o Hk). promotion. split.
  - intros (r & P & _ & H). exists r. split; [auto|now injection H].
  - intros (r & P & ->). exists r. split; auto. split; [eapply promoted_ordinary; [| |exact P]; [discriminate|valid_all]|reflexivity].
Qed.
(** Complex numbers beside tensors are not promoted at all. *)
Theorem C69_complex_number_refuted : forall n x a rest rest', In n scalar_promoting -> tensors x = a :: rest -> numbers x = NComplex :: rest' ->
  dtype_fn n x = None.
Proof.
  intros n x [k t] rest rest' Hn Hx Hy. body b_scalar_promoting. operands. unfold promote, decompose_promote_dtypes. cbn [map tensor_op number_op fst snd].
  change (zlen [Some k; None] =? 0) with false. change (zlen [code t; code (get_dtype_of_scalar NComplex)] =? 0) with false.
  change (zlen [Some k; None] =? zlen [code t; code (get_dtype_of_scalar NComplex)]) with true. cbn [orb negb combine foldM].
  match goal with |- context [promote_step ?b ?s ?o] => destruct (promote_step b s o) as [st|] end; [|reflexivity]. cbn [obind].
  unfold promote_step at 1. change (decode (code (get_dtype_of_scalar NComplex))) with (Some ComplexDouble). reflexivity.
Qed.
Theorem C69_where : forall x cond a b o k rest rest',
  ok a -> ok b -> number_is k o ->
  (tensors x = cond :: a :: b :: rest -> forall res, dtype_fn "aten.where.self" x = Some res <-> exists r, promoted [tensor a; tensor b] r /\ res = [r]) /\
  (tensors x = cond :: a :: rest -> numbers x = k :: rest' ->
     (forall res, dtype_fn "aten.where.ScalarOther" x = Some res <-> exists r, promoted [tensor a; o] r /\ res = [r]) /\
     (forall res, dtype_fn "aten.where.ScalarSelf" x = Some res <-> exists r, promoted [o; tensor a] r /\ res = [r])).
Proof.
  intros x cond a b o k rest rest' Ha Hb Hk. split.
  - intros Hx res. named. operands. promotion. split.
    + intros (r & P & _ & H). exists r. split; [auto|now injection H].
    + intros (r & P & ->). exists r. split; auto. split; [eapply promoted_ordinary; [| |exact P]; [discriminate|valid_all]|reflexivity].
  - intros Hx Hy. split; intros res; named; operands; rewrite (number_eq k o Hk); promotion; split.
    + intros (r & P & _ & H). exists r. split; [auto|now injection H].
    + intros (r & P & ->). exists r. split; auto. split; [eapply promoted_ordinary; [| |exact P]; [discriminate|valid_all]|reflexivity].
    + intros (r & P & _ & H). exists r. split; [auto|now injection H].
    + intros (r & P & ->). exists r. split; auto. split; [eapply promoted_ordinary; [| |exact P]; [discriminate|valid_all]|reflexivity].
Qed.
(** where on two numbers: int64 for two integers, float32 otherwise. *)
Theorem C69_where_numbers : forall x a b rest, numbers x = a :: b :: rest ->
  dtype_fn "aten.where.Scalar" x = Some [match a, b with NInt, NInt => Long | _, _ => Float end].
Proof. intros x a b rest Hn. named. operands. destruct a, b; reflexivity. Qed.
Theorem C69_add_numbers : forall x a b oa ob rest, numbers x = a :: b :: rest -> number_is a oa -> number_is b ob ->
  dtype_fn "aten.add" x = Some [match a, b with NInt, NInt => Long | _, _ => Double end].
Proof. intros x a b oa ob rest Hn Ha Hb. named. operands. destruct Ha, Hb; reflexivity. Qed.
Theorem C69_number_to_tensor_power : forall x a k o rest rest' res, tensors x = a :: rest -> numbers x = k :: rest' -> ok a -> number_is k o ->
  (dtype_fn "aten.pow.Scalar" x = Some res <-> exists r, promoted [o; tensor a] r /\ res = [r]).
Proof.
  intros x a k o rest rest' res Hx Hy Ha Hk. named. operands. rewrite (number_eq k o Hk). promotion. split.
  - intros (r & P & _ & H). exists r. split; [auto|now injection H].
  - intros (r & P & ->). exists r. split; auto. split; [eapply promoted_ordinary; [| |exact P]; [discriminate|valid_all]|reflexivity].
Qed.
(** Promotion, with booleans becoming int64. *)
Theorem C69_power_and_nll_backward : forall n x a b rest res, In n ["aten.pow.Tensor_Tensor"; "aten.nll_loss_backward"] -> tensors x = a :: b :: rest -> ok a -> ok b ->
  (dtype_fn n x = Some res <-> exists r, promoted [tensor a; tensor b] r /\ ((r = Bool /\ res = [Long]) \/ (r <> Bool /\ res = [r]))).
Proof.
  assert (G : forall p res, one (if st_eqb p Bool then Long else p) = Some res <-> (p = Bool /\ res = [Long]) \/ (p <> Bool /\ res = [p])).
  { intros p res. destruct (st_eqb p Bool) eqn:E; [apply st_eqb_eq in E; subst p|apply not_true_iff_false in E; rewrite st_eqb_eq in E]; unfold one; intuition congruence. }
  intros n x a b rest res Hn Hx Ha Hb. destruct Hn as [<- |[<- |[]]]; named; operands; promotion; split.
  - intros (r & P & _ & H). exists r. split; auto. now apply G.
  - intros (r & P & H). exists r. split; auto. split; [eapply promoted_ordinary; [| |exact P]; [discriminate|valid_all]|now apply G].
  - intros (r & P & _ & H). exists r. split; [eapply promoted_permutation; [apply perm_swap|exact P]|now apply G].
  - intros (r & P & H). exists r. split; [eapply promoted_permutation; [apply perm_swap|exact P]|]. split; [eapply promoted_ordinary; [| |exact P]; [discriminate|valid_all]|now apply G].
Qed.
Theorem C69_losses : forall n x a b rest res, In n losses -> tensors x = a :: b :: rest -> ok a -> ok b ->
  (dtype_fn n x = Some res <-> exists r, promoted [tensor a; tensor b] r /\ ~ integral r /\ res = [r]).
Proof.
  intros n x a b rest res Hn Hx Ha Hb. body b_losses. operands. promotion. split.
  - intros (r & P & O & H). exists r. split; auto. clear - O H. finite.
  - intros (r & P & N & ->). exists r. split; auto.
    assert (O : ordinary r) by (eapply promoted_ordinary; [| |exact P]; [discriminate|valid_all]). split; auto. clear - O N. finite.
Qed.
Theorem C69_floor_division : forall n x a b rest res, In n floor_divisions -> tensors x = a :: b :: rest -> ok a -> ok b ->
  (dtype_fn n x = Some res <-> ~ complex (snd a) /\ ~ complex (snd b) /\ exists r, promoted [tensor a; tensor b] r /\ r <> Bool /\ res = [r]).
Proof.
  intros n x a b rest res Hn Hx Ha Hb. body b_floor_divisions. operands. unfold floor_divide.
  assert (C : forall t, is_complex_dtype t = true <-> complex t) by (intros t; now rewrite complex_iff).
  destruct (is_complex_dtype (snd a)) eqn:E1; [apply C in E1; split; [discriminate|tauto]|].
  destruct (is_complex_dtype (snd b)) eqn:E2; [apply C in E2; split; [discriminate|tauto]|]. cbn [guard negb obind].
  apply not_true_iff_false in E1, E2. rewrite C in E1, E2. change tensor_op with tensor.
  destruct (promote_exists [tensor a; tensor b] ltac:(discriminate) ltac:(valid_all)) as (p & E & O). rewrite E. cbn [obind].
  assert (P : promoted [tensor a; tensor b] p) by (apply promote_iff; [discriminate|valid_all|exact E]).
  destruct (st_eqb p Bool) eqn:B; cbn [negb guard obind].
  - apply st_eqb_eq in B. split; [discriminate|]. intros (_ & _ & r & P' & N & _). elim N. rewrite <- B. eapply promoted_unique; eauto.
  - apply not_true_iff_false in B. rewrite st_eqb_eq in B. split; [intros [= <-]; eauto 10|]. intros (_ & _ & r & P' & _ & ->).
    rewrite (promoted_unique _ _ _ P' P). reflexivity.
Qed.
Theorem C69_floor_division_by_number : forall x a k o rest res, tensors x = [a] -> numbers x = k :: rest -> ok a -> number_is k o ->
  (dtype_fn "aten.floor_divide.Scalar" x = Some res <-> ~ complex (snd a) /\ exists r, promoted [tensor a; o] r /\ res = [r]).
Proof.
  intros x a k o rest res Hx Hy Ha Hk. named. operands. unfold floor_divide_scalar.
  assert (C : forall t, is_complex_dtype t = true <-> complex t) by (intros t; now rewrite complex_iff).
  destruct (is_complex_dtype (snd a)) eqn:E1; [apply C in E1; split; [discriminate|tauto]|]. cbn [guard negb obind].
  apply not_true_iff_false in E1. rewrite C in E1. rewrite (number_eq k o Hk), tensor_eq.
  destruct (promote_exists [tensor a; o] ltac:(discriminate) ltac:(valid_all)) as (p & E & O). rewrite E. cbn [obind].
  assert (P : promoted [tensor a; o] p) by (apply promote_iff; [discriminate|valid_all|exact E]).
  split; [intros [= <-]; eauto 10|]. intros (_ & r & P' & ->). now rewrite (promoted_unique _ _ _ P' P).
Qed.
Lemma promoted_same : forall k l t, 0 <= k -> 0 <= l -> ordinary t -> promoted [tensor (k, t); tensor (l, t)] t.
Proof.
  intros k l t Hk Hl O. unfold promoted, dim_types, zero_types, number_types, only_numbers, tensor. cbn [fst snd filter forallb no_rank].
  assert (L1 : lub_list [t] t) by (split; [intros y [<- |[]]; apply le_here|intros c Hc; apply Hc; now left]).
  assert (L2 : lub_list [t; t] t) by (split; [intros y [<- |[<- |[]]]; apply le_here|intros c Hc; apply Hc; now left]).
  destruct (Z.ltb_spec 0 k), (Z.ltb_spec 0 l), (Z.eqb_spec k 0), (Z.eqb_spec l 0); try lia; cbn [map].
  - exists (Some t), None, None, None. repeat split; try exact (proj1 L2); try exact (proj2 L2).
  - exists (Some t), (Some t), None, (Some t). repeat split; try exact (proj1 L1); try exact (proj2 L1). exists t. split; auto. left. split; [lia|auto].
  - exists (Some t), (Some t), None, (Some t). repeat split; try exact (proj1 L1); try exact (proj2 L1). exists t. split; auto. left. split; [lia|auto].
  - exists None, (Some t), None, (Some t). repeat split; try exact (proj1 L2); try exact (proj2 L2).
Qed.
(** Operators that insist on one dtype return it. *)
Theorem C69_one_dtype : forall n x a b rest res, tensors x = a :: b :: rest -> ok a -> ok b ->
  In n convolutions \/ n = "aten.linalg_cross" ->
  (dtype_fn n x = Some res <-> snd a = snd b /\ snd a <> Bool /\ (In n convolutions -> ~ complex (snd a)) /\ res = [snd a]).
Proof.
  intros n x [k t] [l u] rest res Hx Ha Hb Hn.
  assert (S : forall t, t = u -> ordinary t -> promote [tensor_op (k, t); tensor_op (l, u)] = Some t).
  { intros t0 -> O. apply promote_iff; [discriminate| |apply promoted_same; [apply Ha|apply Hb|auto]].
    repeat (apply Forall_cons; [apply valid_tensor; split; [|auto]; [apply Ha || apply Hb]|]). apply Forall_nil. }
  destruct Hn as [Hn| ->].
  - body b_convolutions. operands. destruct (st_eqb t u) eqn:E; cbn [guard obind].
    + apply st_eqb_eq in E. destruct Ha as [_ O]. cbn [snd] in O. specialize (S t E O). subst u. rewrite S. assert (Hn' : forall Q : Prop, (In n convolutions -> Q) <-> Q) by tauto. rewrite Hn'. clear - O. finite.
    + apply not_true_iff_false in E. rewrite st_eqb_eq in E. split; [discriminate|tauto].
  - named. operands. destruct (st_eqb t u) eqn:E; cbn [guard obind].
    + apply st_eqb_eq in E. destruct Ha as [_ O]. cbn [snd] in O. specialize (S t E O). subst u. rewrite S. assert (Hn' : ~ In "aten.linalg_cross" convolutions) by (cbn; intuition discriminate).
      assert (Hn2 : (In "aten.linalg_cross" convolutions -> ~ complex t) <-> True) by tauto. rewrite Hn2. clear - O. finite.
    + apply not_true_iff_false in E. rewrite st_eqb_eq in E. split; [discriminate|tauto].
Qed.
(** The batched product with an addend looks only at the factors. *)
Theorem C69_baddbmm : forall x s a b rest res, tensors x = s :: a :: b :: rest -> ok a -> ok b ->
  (dtype_fn "aten.baddbmm" x = Some res <-> snd a = snd b /\ snd a <> Bool /\ res = [snd a]).
Proof.
  intros x s [k t] [l u] rest res Hx Ha Hb.
  assert (S : forall t, t = u -> ordinary t -> promote [tensor_op (k, t); tensor_op (l, u)] = Some t).
  { intros t0 -> O. apply promote_iff; [discriminate| |apply promoted_same; [apply Ha|apply Hb|auto]].
    repeat (apply Forall_cons; [apply valid_tensor; split; [|auto]; [apply Ha || apply Hb]|]). apply Forall_nil. }
  named. operands. destruct (st_eqb t u) eqn:E.
  - apply st_eqb_eq in E. destruct Ha as [_ O]. cbn [snd] in O. specialize (S t E O). subst u. rewrite S. clear - O. finite.
  - apply not_true_iff_false in E. rewrite st_eqb_eq in E.
    split; [|tauto]. destruct (guard (negb (st_eqb t Bool))); [|discriminate]. destruct (guard (negb (st_eqb u Bool))); discriminate.
Qed.
Theorem C69_leaky_relu : forall x a k o rest res, tensors x = [a] -> numbers x = k :: rest -> ok a -> number_is k o ->
  (dtype_fn "aten.leaky_relu" x = Some res <->
   snd a <> Bool /\ (k = NFloat -> ~ integral (snd a)) /\ exists r, promoted [tensor a; o] r /\ res = [r]).
Proof.
  intros x a k o rest res Hx Hy Ha Hk. named. operands. rewrite (number_eq k o Hk), tensor_eq.
  destruct (promote_exists [tensor a; o] ltac:(discriminate) ltac:(valid_all)) as (p & E & O). rewrite E. cbn [obind].
  assert (P : promoted [tensor a; o] p) by (apply promote_iff; [discriminate|valid_all|exact E]).
  assert (Q : (exists r, promoted [tensor a; o] r /\ res = [r]) <-> res = [p]).
  { split; [intros (r & P' & ->); now rewrite (promoted_unique _ _ _ P' P)|eauto]. }
  rewrite Q. clear - Hk. booleans. destruct (snd a), Hk; vm_compute; intuition congruence.
Qed.
(** clamp promotes over the operands that are present; a tensor alone keeps its dtype. *)
Theorem C69_clamp : forall x a rest, tensors x = a :: rest -> Forall ok (a :: rest) -> forall res,
  (dtype_fn "aten.clamp.Tensor" x = Some res <-> exists r, promoted (map tensor (a :: rest)) r /\ res = [r]).
Proof.
  intros x a rest Hx F res. named. operands. change tensor_op with tensor. pose proof (valid_tensors _ F) as V.
  destruct (promote_exists (map tensor (a :: rest)) ltac:(discriminate) V) as (p & E & O).
  assert (P : promoted (map tensor (a :: rest)) p) by (apply promote_iff; [discriminate|exact V|exact E]).
  assert (Q : (exists r, promoted (map tensor (a :: rest)) r /\ res = [r]) <-> res = [p]).
  { split; [intros (r & P' & ->); now rewrite (promoted_unique _ _ _ P' P)|eauto]. }
  rewrite Q. destruct rest as [|b rest].
  - cbn [map] in P. assert (T : promoted [tensor a] (snd a)).
    { inversion_clear F as [|? ? [R Oa] _]. unfold promoted, dim_types, zero_types, number_types, only_numbers, tensor. cbn [fst snd filter forallb no_rank].
      assert (L1 : lub_list [snd a] (snd a)) by (split; [intros y [<- |[]]; apply le_here|intros c Hc; apply Hc; now left]).
      destruct (Z.ltb_spec 0 (fst a)), (Z.eqb_spec (fst a) 0); try lia; cbn [map].
      - exists (Some (snd a)), None, None, None. repeat split; try exact (proj1 L1); try exact (proj2 L1).
      - exists None, (Some (snd a)), None, (Some (snd a)). repeat split; try exact (proj1 L1); try exact (proj2 L1). }
    rewrite (promoted_unique _ _ _ P T). unfold one. split; congruence.
  - rewrite E. cbn [obind]. unfold one. split; congruence.
Qed.
(** The order of the operands does not matter. *)
Theorem C69_order_irrelevant : forall n x y, In n binary_promoting \/ In n ternary_promoting \/ In n list_promoting ->
  (In n binary_promoting -> length (tensors x) = 2%nat) -> (In n ternary_promoting -> length (tensors x) = 3%nat) ->
  Forall ok (tensors x) -> Permutation (tensors x) (tensors y) -> dtype_fn n x = dtype_fn n y.
Proof.
  intros n x y Hn L2 L3 F P. pose proof (Permutation_length P) as LP.
  assert (F' : Forall ok (tensors y)) by (eapply Permutation_Forall; eauto).
  assert (PP : Permutation (map tensor (tensors x)) (map tensor (tensors y))) by now apply Permutation_map.
  assert (SAME : forall (f g : option (list scalar_type)) (S T : list scalar_type -> Prop), (forall res, f = Some res <-> S res) -> (forall res, g = Some res <-> T res) -> (forall res, S res <-> T res) -> f = g).
  { intros f g S T Hf Hg H. destruct f as [u|]; [symmetry; apply Hg, H, Hf; reflexivity|]. destruct g as [v|]; [|reflexivity]. apply Hf, H, Hg. reflexivity. }
  destruct Hn as [Hn|[Hn|Hn]].
  - specialize (L2 Hn). destruct (tensors x) as [|a [|b [|]]] eqn:Ex; try discriminate. destruct (tensors y) as [|a' [|b' [|]]] eqn:Ey; try discriminate.
    inversion_clear F as [|? ? A1 F0]. inversion_clear F0 as [|? ? A2 _]. inversion_clear F' as [|? ? B1 F0]. inversion_clear F0 as [|? ? B2 _].
    eapply SAME; [intros; eapply C69_two_tensors; eauto|intros; eapply C69_two_tensors; eauto|].
    intros res. split; intros (r & Hr & ->); exists r; (split; [|reflexivity]); eapply promoted_permutation; [exact PP|exact Hr|apply Permutation_sym; exact PP|exact Hr].
  - specialize (L3 Hn). destruct (tensors x) as [|a [|b [|c [|]]]] eqn:Ex; try discriminate. destruct (tensors y) as [|a' [|b' [|c' [|]]]] eqn:Ey; try discriminate.
    inversion_clear F as [|? ? A1 F0]. inversion_clear F0 as [|? ? A2 F1]. inversion_clear F1 as [|? ? A3 _].
    inversion_clear F' as [|? ? B1 F0]. inversion_clear F0 as [|? ? B2 F1]. inversion_clear F1 as [|? ? B3 _].
    eapply SAME; [intros; eapply C69_three_tensors; eauto|intros; eapply C69_three_tensors; eauto|].
    intros res. split; intros (r & Hr & ->); exists r; (split; [|reflexivity]); eapply promoted_permutation; [exact PP|exact Hr|apply Permutation_sym; exact PP|exact Hr].
  - eapply SAME; [intros; apply C69_list_of_tensors; auto|intros; apply C69_list_of_tensors; auto|].
    intros res. split; intros (Hne & r & Hr & ->); (split; [|exists r; split; [|reflexivity]]).
    + intros E. rewrite E in LP. destruct (tensors x); [easy|discriminate].
    + eapply promoted_permutation; [exact PP|exact Hr].
    + intros E. rewrite E in LP. destruct (tensors y); [easy|discriminate].
    + eapply promoted_permutation; [apply Permutation_sym; exact PP|exact Hr].
Qed.
(** They never fail on ordinary operands. *)
Theorem C69_total : forall n x a b rest, In n binary_promoting -> tensors x = a :: b :: rest -> ok a -> ok b ->
  exists r, dtype_fn n x = Some [r] /\ ordinary r.
Proof.
  intros n x a b rest Hn Hx Ha Hb. destruct (promote_exists [tensor a; tensor b] ltac:(discriminate) ltac:(valid_all)) as (r & E & O).
  exists r. split; auto. eapply C69_two_tensors; eauto. exists r. split; auto. apply promote_iff; [discriminate|valid_all|exact E].
Qed.
Example C69_nonvacuous :
  dtype_fn "aten.add.Tensor" {| tensors := [(2, Int); (0, Double)]; numbers := []; dtype := None; flag := None; mode := None |} = Some [Double] /\
  dtype_fn "aten.add.Tensor" {| tensors := [(2, Half); (0, Double)]; numbers := []; dtype := None; flag := None; mode := None |} = Some [Half] /\
  dtype_fn "aten.mul.Scalar" {| tensors := [(2, Int)]; numbers := [NFloat]; dtype := None; flag := None; mode := None |} = Some [Float] /\
  dtype_fn "aten.cat" {| tensors := [(2, Int); (1, Long); (1, Bool)]; numbers := []; dtype := None; flag := None; mode := None |} = Some [Long] /\
  dtype_fn "aten.floor_divide" {| tensors := [(2, Bool); (1, Bool)]; numbers := []; dtype := None; flag := None; mode := None |} = None.
Proof. vm_compute. auto 10. Qed.

(** ** C70: reductions *)
Theorem C70_sums : forall n x k t rest, In n sums -> tensors x = (k, t) :: rest ->
  (forall d, dtype x = Some d -> dtype_fn n x = Some [d]) /\
  (dtype x = None -> integral t -> dtype_fn n x = Some [Long]) /\
  (dtype x = None -> ~ integral t -> dtype_fn n x = Some [t]).
Proof.
  intros n x k t rest Hn Hx. body b_sums. repeat split; intros; operands; [reflexivity| |]; clear Hn; finite.
Qed.
(** A mean has the dtype of the sum, which must not be integral. *)
Theorem C70_means : forall n x k t rest res, In n means -> tensors x = (k, t) :: rest ->
  (dtype_fn n x = Some res <-> dtype_fn "aten.sum" x = Some res /\ forall r, In r res -> ~ integral r).
Proof.
  intros n x k t rest res Hn Hx. body b_means. named. operands. setoid_rewrite integral_iff. unfold one.
  destruct (is_integer_dtype (sum_dtype (dtype x) t)) eqn:E; cbn [negb guard obind].
  - split; [discriminate|]. intros [[= <-] H]. elim (H _ (or_introl eq_refl)). exact E.
  - split; [|tauto]. intros [= <-]. split; auto. intros r [<- |[]]. now rewrite E.
Qed.
Theorem C70_prims_sums : forall n x k t rest res, In n prims_sums -> tensors x = (k, t) :: rest ->
  (dtype_fn n x = Some res <-> dtype x = None /\ res = [t]).
Proof. intros n x k t rest res Hn Hx. body b_prims_sums. operands. destruct (dtype x); unfold one; intuition congruence. Qed.
Theorem C70_trace : forall x k t rest, tensors x = (k, t) :: rest -> dtype x = None -> dtype_fn "aten.trace" x = dtype_fn "aten.sum" x.
Proof. intros x k t rest Hx Hd. named. operands. reflexivity. Qed.
Theorem C70_trace_dtype : forall x k t rest res, tensors x = (k, t) :: rest ->
  (dtype_fn "aten.trace" x = Some res <-> (integral t /\ res = [Long]) \/ (~ integral t /\ res = [t])).
Proof. intros x k t rest res Hx. named. operands. finite. Qed.
Theorem C70_deviations : forall n x k t rest res, In n deviations \/ In n absolutes -> tensors x = (k, t) :: rest ->
  (dtype_fn n x = Some res <-> exists r, real_part t r /\ res = [r]).
Proof. intros n x k t rest res [Hn|Hn] Hx; [body b_deviations|body b_absolutes]; operands; clear Hn; finite. Qed.
Theorem C70_var_means : forall n x k t rest res, In n var_means -> tensors x = (k, t) :: rest ->
  (dtype_fn n x = Some res <-> ~ integral t /\ exists r, real_part t r /\ res = [r; t]).
Proof.
  intros n x k t rest res Hn Hx. body b_var_means. operands. setoid_rewrite real_part_iff.
  assert (S : (exists r, r = std_dtype t /\ res = [r; t]) <-> res = [std_dtype t; t]) by (split; [intros (r & -> & ->); auto|eauto]). rewrite S.
  clear Hn S. finite.
Qed.
(** Norms: a given dtype must be complex exactly if the operand is. *)
Theorem C70_norms : forall n x k t rest res, In n norms -> tensors x = (k, t) :: rest ->
  (dtype_fn n x = Some res <-> ~ integral t /\
    ((dtype x = None /\ exists r, real_part t r /\ res = [r]) \/
     (exists d, dtype x = Some d /\ ~ integral d /\ (complex d <-> complex t) /\ exists r, real_part d r /\ res = [r]))).
Proof.
  intros n x k t rest res Hn Hx. body b_norms. operands. setoid_rewrite real_part_iff. setoid_rewrite single. setoid_rewrite integral_iff. setoid_rewrite complex_iff.
  assert (NC : forall t, is_complex_dtype t = false -> std_dtype t = t) by (intros []; vm_compute; congruence).
  destruct (is_integer_dtype t) eqn:It; cbn [negb guard obind]; [split; [discriminate|intros [H _]; now elim H]|].
  destruct (dtype x) as [d|] eqn:Ed.
  - destruct (is_integer_dtype d) eqn:Id; cbn [negb guard obind].
    { split; [discriminate|]. intros (_ & [[H _]|(d' & [= <-] & H & _)]); [discriminate|congruence]. }
    destruct (is_complex_dtype t) eqn:Ct, (is_complex_dtype d) eqn:Cd; cbn [negb guard obind]; unfold one.
    + split; [intros [= <-]; split; [congruence|]; right; exists d; repeat split; auto; congruence|].
      intros (_ & [[H _]|(d' & [= <-] & _ & _ & ->)]); [discriminate|reflexivity].
    + split; [discriminate|]. intros (_ & [[H _]|(d' & [= <-] & _ & H & _)]); [discriminate|]. rewrite Cd in H. destruct H as [_ H]. now specialize (H eq_refl).
    + split; [discriminate|]. intros (_ & [[H _]|(d' & [= <-] & _ & H & _)]); [discriminate|]. rewrite Cd in H. destruct H as [H _]. now specialize (H eq_refl).
    + split; [intros [= <-]; split; [congruence|]; right; exists d; rewrite (NC d Cd); repeat split; auto; congruence|].
      intros (_ & [[H _]|(d' & [= <-] & _ & _ & ->)]); [discriminate|]. now rewrite (NC d Cd).
  - unfold one. split; [intros [= <-]; split; [congruence|]; left; auto|]. intros (_ & [[_ ->]|(d & H & _)]); [reflexivity|discriminate].
Qed.
Theorem C70_norm_scalar : forall x k t rest res, tensors x = (k, t) :: rest -> t <> ComplexHalf ->
  (dtype_fn "aten.norm.Scalar" x = Some res <-> ~ integral t /\ exists r, real_part t r /\ res = [r]).
Proof. intros x k t rest res Hx Hh. named. operands. finite. Qed.
Theorem C70_norm_scalar_half : forall x k rest, tensors x = (k, ComplexHalf) :: rest -> dtype_fn "aten.norm.Scalar" x = Some [Half].
Proof. intros x k rest Hx. named. operands. reflexivity. Qed.
Theorem C70_any_all : forall n x k t rest res, In n any_all -> tensors x = (k, t) :: rest ->
  (dtype_fn n x = Some res <-> (t = Byte /\ res = [Byte]) \/ (t <> Byte /\ res = [Bool])).
Proof. intros n x k t rest res Hn Hx. body b_any_all. operands. clear Hn. finite. Qed.
Theorem C70_extremes : forall x k t rest, tensors x = (k, t) :: rest ->
  dtype_fn "aten.aminmax" x = Some [t; t] /\ (forall n, In n with_indices -> dtype_fn n x = Some [t; Long]).
Proof. intros x k t rest Hx. split; [named; operands; reflexivity|]. intros n Hn. body b_with_indices. operands. reflexivity. Qed.
Example C70_nonvacuous :
  dtype_fn "aten.sum" {| tensors := [(2, Bool)]; numbers := []; dtype := None; flag := None; mode := None |} = Some [Long] /\
  dtype_fn "aten.mean" {| tensors := [(2, Int)]; numbers := []; dtype := None; flag := None; mode := None |} = None /\
  dtype_fn "aten.mean" {| tensors := [(2, Int)]; numbers := []; dtype := Some Half; flag := None; mode := None |} = Some [Half] /\
  dtype_fn "aten.var_mean" {| tensors := [(2, ComplexFloat)]; numbers := []; dtype := None; flag := None; mode := None |} = Some [Float; ComplexFloat] /\
  dtype_fn "aten.linalg_norm" {| tensors := [(2, Float)]; numbers := []; dtype := Some ComplexFloat; flag := None; mode := None |} = None.
Proof. vm_compute. auto 10. Qed.

(** ** C71: creation and conversion *)
(** A given dtype is the dtype of the result, for every operator that takes one. *)
Theorem C71_given_dtype_wins : forall n x k t rest d, tensors x = (k, t) :: rest -> dtype x = Some d ->
  In n float_creators \/ In n int_creators \/ In n likes \/ In n conversions \/ n = "aten.tensor.bool" \/ (n = "aten.full" /\ numbers x <> []) ->
  dtype_fn n x = Some [d].
Proof.
  intros n x k t rest d Hx Hd [Hn|[Hn|[Hn|[Hn|[-> |[-> Hn]]]]]];
    [body b_float_creators|body b_int_creators|body b_likes|body b_conversions|named|named]; operands; try reflexivity.
  destruct (numbers x); [now elim Hn|reflexivity].
Qed.
Theorem C71_defaults : forall n x, dtype x = None ->
  (In n float_creators -> dtype_fn n x = Some [Float]) /\ (In n int_creators -> dtype_fn n x = Some [Long]) /\
  dtype_fn "aten.tensor.bool" x = Some [Bool] /\ dtype_fn "aten.randint.low" x = Some [Long] /\ dtype_fn "aten.hann_window.periodic" x = Some [Float] /\
  (In n normal_creators -> dtype_fn n x = Some [Float]) /\ (In n conversions -> dtype_fn n x = None) /\
  (forall k t rest, tensors x = (k, t) :: rest -> In n likes -> dtype_fn n x = Some [t]).
Proof.
  intros n x Hd. split; [intros Hn; body b_float_creators; operands; reflexivity|]. split; [intros Hn; body b_int_creators; operands; reflexivity|].
  split; [named; operands; reflexivity|]. split; [named; operands; reflexivity|]. split; [named; operands; reflexivity|].
  split; [intros Hn; body b_normal_creators; operands; reflexivity|]. split; [intros Hn; body b_conversions; operands; reflexivity|].
  intros k t rest Hx Hn. body b_likes. operands. reflexivity.
Qed.
(** Which given dtypes are refused. *)
Theorem C71_refused_dtypes : forall n x d res, dtype x = Some d ->
  (In n normal_creators -> (dtype_fn n x = Some res <-> ~ integral d /\ res = [d])) /\
  (dtype_fn "aten.hann_window.periodic" x = Some res <-> floating d /\ res = [d]) /\
  (dtype_fn "aten.randint.low" x = Some res <-> ~ complex d /\ res = [d]) /\
  (In n ranges -> (dtype_fn n x = Some res <-> ~ complex d /\ res = [d])) /\
  (forall k t rest, tensors x = (k, t) :: rest -> (dtype_fn "aten.randn_like" x = Some res <-> ~ integral d /\ res = [d])).
Proof.
  intros n x d res Hd. split; [intros Hn; body b_normal_creators; operands; clear Hn; finite|]. split; [named; operands; finite|].
  split; [named; operands; finite|]. split; [intros Hn; body b_ranges; operands; clear Hn; finite|].
  intros k t rest Hx. named. operands. clear. finite.
Qed.
Theorem C71_randn_like : forall x k t rest res, tensors x = (k, t) :: rest -> dtype x = None ->
  (dtype_fn "aten.randn_like" x = Some res <-> ~ integral t /\ res = [t]).
Proof. intros x k t rest res Hx Hd. named. operands. finite. Qed.
(** A range is floating point if one of its numbers is. *)
Theorem C71_ranges : forall n x, In n ranges -> dtype x = None ->
  (In NFloat (numbers x) -> dtype_fn n x = Some [Float]) /\ (~ In NFloat (numbers x) -> dtype_fn n x = Some [Long]).
Proof.
  intros n x Hn Hd. body b_ranges. operands.
  assert (E : existsb (fun n0 => is_float_dtype (get_dtype_of_scalar n0)) (numbers x) = true <-> In NFloat (numbers x)).
  { rewrite existsb_exists. split; [intros (m & H & E); destruct m; try discriminate; exact H|intros H; exists NFloat; auto]. }
  destruct (existsb _ (numbers x)); split; intros H; try reflexivity; [tauto|]. apply E in H. discriminate.
Qed.
Theorem C71_full : forall x m rest, numbers x = m :: rest -> dtype x = None ->
  dtype_fn "aten.full" x = Some [match m with NInt => Long | NFloat => Float | NComplex => ComplexDouble end].
Proof. intros x m rest Hn Hd. named. operands. destruct m; reflexivity. Qed.
(** A number is a tensor of int64, float64 or complex128. *)
Theorem C71_number_tensors : forall n x m rest, In n number_tensors -> numbers x = m :: rest ->
  dtype_fn n x = Some [match m with NInt => Long | NFloat => Double | NComplex => ComplexDouble end].
Proof. intros n x m rest Hn Hx. body b_number_tensors. operands. destruct m; reflexivity. Qed.
Theorem C71_converted_like : forall n x a b rest, In n conversions_like -> tensors x = a :: b :: rest -> dtype_fn n x = Some [snd b].
Proof. intros n x a b rest Hn Hx. body b_conversions_like. operands. reflexivity. Qed.
(** The number inside a tensor. *)
Theorem C71_number_of_tensor : forall x k t rest res, tensors x = (k, t) :: rest ->
  (dtype_fn "aten.ScalarImplicit" x = Some res <->
   (floating t /\ res = [Double]) \/ (t = Bool /\ res = [Bool]) \/ (integral t /\ t <> Bool /\ res = [Long])).
Proof. intros x k t rest res Hx. named. operands. finite. Qed.
(** Softmax can widen 16-bit floats; log_softmax only float16. *)
Theorem C71_softmax : forall x k t rest res, tensors x = (k, t) :: rest ->
  (flag x = Some false -> (dtype_fn "aten._softmax" x = Some res <-> res = [t]) /\ (dtype_fn "aten._log_softmax" x = Some res <-> res = [t])) /\
  (flag x = Some true -> (dtype_fn "aten._softmax" x = Some res <-> In t [Half; BFloat16] /\ res = [Float]) /\
                         (dtype_fn "aten._log_softmax" x = Some res <-> t = Half /\ res = [Float])) /\
  (flag x = None -> dtype_fn "aten._softmax" x = None /\ dtype_fn "aten._log_softmax" x = None).
Proof.
  intros x k t rest res Hx. split; [|split]; intros Hf; split; named; operands; try reflexivity; finite.
Qed.
Example C71_nonvacuous :
  dtype_fn "aten.zeros" {| tensors := []; numbers := []; dtype := None; flag := None; mode := None |} = Some [Float] /\
  dtype_fn "aten.zeros_like" {| tensors := [(1, Int)]; numbers := []; dtype := Some Bool; flag := None; mode := None |} = Some [Bool] /\
  dtype_fn "aten.arange.start" {| tensors := []; numbers := [NInt; NFloat]; dtype := None; flag := None; mode := None |} = Some [Float] /\
  dtype_fn "aten._log_softmax" {| tensors := [(1, BFloat16)]; numbers := []; dtype := None; flag := Some true; mode := None |} = None /\
  dtype_fn "aten.randn" {| tensors := []; numbers := []; dtype := Some Long; flag := None; mode := None |} = None.
Proof. vm_compute. auto 10. Qed.

(** ** C72: results of a fixed dtype *)
Theorem C72_fixed : forall n x, (In n predicates -> dtype_fn n x = Some [Bool]) /\ (In n index_ops -> dtype_fn n x = Some [Long]) /\
  (In n to_float -> dtype_fn n x = Some [Float]).
Proof.
  intros n x. split; [intros Hn; body b_predicates; reflexivity|]. split; [intros Hn; body b_index_ops; reflexivity|]. intros Hn. body b_to_float. reflexivity.
Qed.
Theorem C72_infinity_tests : forall n x k t rest res, In n infinity_tests -> tensors x = (k, t) :: rest ->
  (dtype_fn n x = Some res <-> ~ complex t /\ res = [Bool]).
Proof. intros n x k t rest res Hn Hx. body b_infinity_tests. operands. clear Hn. finite. Qed.
Theorem C72_bucketize : forall x b, flag x = Some b -> dtype_fn "aten.bucketize.Tensor" x = Some [if b then Int else Long].
Proof. intros x b Hf. named. operands. destruct b; reflexivity. Qed.
Theorem C72_one_hot : forall x k t rest res, tensors x = (k, t) :: rest -> (dtype_fn "aten.one_hot" x = Some res <-> t = Long /\ res = [Long]).
Proof. intros x k t rest res Hx. named. operands. finite. Qed.
Theorem C72_bincount : forall x k t rest res, tensors x = (k, t) :: rest ->
  (dtype_fn "aten.bincount" x = Some res <-> integral t /\ t <> Bool /\ res = [match rest with [] => Long | _ => Double end]).
Proof. intros x k t rest res Hx. named. operands. destruct rest; finite. Qed.
Theorem C72_int_mm : forall x k t l u rest res, tensors x = (k, t) :: (l, u) :: rest ->
  (dtype_fn "aten._int_mm" x = Some res <-> t = Char /\ u = Char /\ res = [Int]).
Proof.
  intros x k t l u rest res Hx. named. operands. rewrite <- !st_eqb_eq. destruct (st_eqb t Char); [|split; [discriminate|intuition discriminate]]. cbn [guard obind].
  destruct (st_eqb u Char); cbn [guard obind]; unfold one; split; intuition congruence.
Qed.
Example C72_nonvacuous :
  dtype_fn "aten.eq.Tensor" {| tensors := [(2, Half); (1, Half)]; numbers := []; dtype := None; flag := None; mode := None |} = Some [Bool] /\
  dtype_fn "aten.argmax" {| tensors := [(2, Half)]; numbers := []; dtype := None; flag := None; mode := None |} = Some [Long] /\
  dtype_fn "aten.one_hot" {| tensors := [(2, Int)]; numbers := []; dtype := None; flag := None; mode := None |} = None.
Proof. vm_compute. auto. Qed.

(** ** C73: operators that keep the dtype *)
Theorem C73_kept : forall n x a rest, In n keeping -> tensors x = a :: rest -> dtype_fn n x = Some [snd a].
Proof. intros n x a rest Hn Hx. body b_keeping. operands. reflexivity. Qed.
Theorem C73_several_results : forall x a rest, tensors x = a :: rest ->
  dtype_fn "aten.native_dropout" x = Some [snd a; Bool] /\
  (forall n, In n embedding_bags -> dtype_fn n x = Some [snd a; Long; Long; Long]) /\
  (forall b c rest', rest = b :: c :: rest' -> dtype_fn "aten.convolution_backward" x = Some [snd a; snd a; snd a]) /\
  (integral (snd a) -> dtype_fn "aten.native_batch_norm" x = Some [snd a; snd a; Float]) /\
  (~ integral (snd a) -> dtype_fn "aten.native_batch_norm" x = Some [snd a; snd a; snd a]).
Proof.
  intros x a rest Hx. repeat split.
  - named. operands. reflexivity.
  - intros n Hn. body b_embedding_bags. operands. reflexivity.
  - intros b c rest' ->. named. operands. reflexivity.
  - intros H. apply integral_iff in H. named. operands. now rewrite H.
  - intros H. rewrite integral_iff in H. apply not_true_iff_false in H. named. operands. now rewrite H.
Qed.
(** Both operands must have the same dtype. *)
Theorem C73_equal_dtypes : forall n x a b rest res, In n equal_dtypes -> tensors x = a :: b :: rest ->
  (dtype_fn n x = Some res <-> snd a = snd b /\ res = [snd a]).
Proof.
  intros n x a b rest res Hn Hx. body b_equal_dtypes. operands. rewrite <- st_eqb_eq. destruct (st_eqb (snd a) (snd b)); cbn [guard obind]; unfold one; intuition congruence.
Qed.
(** Both operands must have the same rank. *)
Theorem C73_noise : forall x a b rest res, tensors x = a :: b :: rest ->
  (dtype_fn "aten.rrelu_with_noise" x = Some res <-> fst a = fst b /\ res = [snd a]) /\
  (dtype_fn "aten.rrelu_with_noise_functional" x = Some res <-> fst a = fst b /\ res = [snd a; snd b]).
Proof.
  intros x a b rest res Hx. split; named; operands; destruct (Z.eqb_spec (fst a) (fst b)); cbn [guard obind]; unfold one; intuition congruence.
Qed.
(** Broadcasting keeps the dtypes and gives every tensor the highest rank. *)
Theorem C73_broadcast_tensors : forall l, (forall a, In a l -> 0 <= fst a) ->
  map snd (broadcast_tensors_dtype l) = map snd l /\
  (forall a b, In a l -> In b (broadcast_tensors_dtype l) -> fst a <= fst b) /\
  (forall b, In b (broadcast_tensors_dtype l) -> exists a, In a l /\ fst b = fst a).
Proof.
  intros l Hl. unfold broadcast_tensors_dtype. set (f := fun (m : Z) (t : rd) => if m <? fst t then fst t else m).
  assert (B : forall l m, (forall a, In a l -> fst a <= fold_left f l m) /\ m <= fold_left f l m /\
             (fold_left f l m = m \/ exists a, In a l /\ fold_left f l m = fst a)).
  { clear. induction l as [|c l IH]; intros m; cbn [fold_left].
    - split; [intros a []|]. split; [lia|now left].
    - destruct (IH (f m c)) as (I1 & I2 & I3). assert (F : m <= f m c /\ fst c <= f m c /\ (f m c = m \/ f m c = fst c)).
      { unfold f. destruct (Z.ltb_spec m (fst c)); repeat split; try lia; auto. }
      destruct F as (F1 & F2 & F3). split; [intros a [<- |H]; [lia|auto]|]. split; [lia|].
      destruct I3 as [I3|(a & Ha & I3)]; [|right; exists a; split; [now right|exact I3]].
      destruct F3 as [F3|F3]; [left; lia|]. right. exists c. split; [now left|]. lia. }
  destruct (B l 0) as (B1 & B2 & B3). clear B. revert B1 B2 B3. change (fold_left _ l 0) with (fold_left f l 0). generalize (fold_left f l 0). clear f. intros m B1 B2 B3. split; [|split].
  - rewrite map_map. reflexivity.
  - intros a b Ha Hb. apply in_map_iff in Hb. destruct Hb as (c & <- & _). cbn [fst]. auto.
  - intros b Hb. apply in_map_iff in Hb. destruct Hb as (c & <- & Hc). cbn [fst]. destruct B3 as [B3|B3].
    + exists c. split; auto. specialize (B1 c Hc). specialize (Hl c Hc). lia.
    + destruct B3 as (a & Ha & E). exists a. auto.
Qed.
Theorem C73_reflection_pad1d : forall a padding r, reflection_pad1d_dtype a padding = Some r <-> List.length padding = 2%nat /\ r = snd a.
Proof.
  intros a padding r. unfold reflection_pad1d_dtype. destruct (Z.eqb_spec (zlen padding) 2) as [E|E]; cbn [guard obind]; unfold zlen in E; split; intros H.
  - injection H as <-. split; [lia|auto].
  - destruct H as [_ ->]. reflexivity.
  - discriminate.
  - destruct H as [H _]. rewrite H in E. now elim E.
Qed.
Example C73_nonvacuous :
  dtype_fn "aten.view" {| tensors := [(2, Half)]; numbers := []; dtype := None; flag := None; mode := None |} = Some [Half] /\
  dtype_fn "aten.bmm" {| tensors := [(3, Half); (3, Float)]; numbers := []; dtype := None; flag := None; mode := None |} = None /\
  broadcast_tensors_dtype [(2, Half); (3, Int)] = [(3, Half); (3, Int)].
Proof. vm_compute. auto. Qed.

(** ** C74: dtypes that are refused *)
Theorem C74_refused : forall n x k t rest res, tensors x = (k, t) :: rest ->
  (In n not_uint8 -> (dtype_fn n x = Some res <-> t <> Byte /\ res = [t])) /\
  (In n not_integer -> (dtype_fn n x = Some res <-> ~ integral t /\ res = [t])) /\
  (In n not_bool -> (dtype_fn n x = Some res <-> t <> Bool /\ res = [t])) /\
  (dtype_fn "aten.hardtanh" x = Some res <-> t <> Bool /\ t <> Byte /\ res = [t]) /\
  (dtype_fn "aten.selu" x = Some res <-> ~ integral t /\ res = [t]) /\
  (dtype_fn "aten.layer_norm" x = Some res <-> ~ integral t /\ ~ complex t /\ res = [t]) /\
  (dtype_fn "aten.native_layer_norm" x = Some res <-> ~ integral t /\ ~ complex t /\ res = [t; t; t]) /\
  (dtype_fn "aten.native_group_norm" x = Some res <-> ~ integral t /\ res = [t; t; t]) /\
  (dtype_fn "aten.logaddexp2" x = Some res <-> t <> Bool /\ t <> ComplexHalf /\ ~ complex t /\ res = [t]).
Proof.
  intros n x k t rest res Hx. split; [intros Hn; body b_not_uint8; operands; clear Hn; finite|]. split; [intros Hn; body b_not_integer; operands; clear Hn; finite|].
  split; [intros Hn; body b_not_bool; operands; clear Hn; finite|]. repeat (split; [named; operands; finite|]). named. operands. finite.
Qed.
Theorem C74_fake_quantize : forall n x k t rest res, tensors x = (k, t) :: rest ->
  (dtype_fn "aten.fake_quantize_per_tensor_affine" x = Some res <-> floating t /\ res = [t]) /\
  (dtype_fn "aten.fake_quantize_per_tensor_affine_cachemask" x = Some res <-> floating t /\ res = [t; Bool]) /\
  (In n fake_quantizers -> (dtype_fn n x = Some res <-> floating t /\ t <> BFloat16 /\ res = [t])) /\
  (In n fake_quantizers_mask -> (dtype_fn n x = Some res <-> floating t /\ t <> BFloat16 /\ res = [t; Bool])).
Proof.
  intros n x k t rest res Hx. split; [named; operands; finite|]. split; [named; operands; finite|].
  split; [intros Hn; body b_fake_quantizers; operands; clear Hn; finite|]. intros Hn; body b_fake_quantizers_mask; operands; clear Hn; finite.
Qed.
Theorem C74_bool_to_int64 : forall n x k t rest res, In n bool_to_int64 -> tensors x = (k, t) :: rest ->
  (dtype_fn n x = Some res <-> (t = Bool /\ res = [Long]) \/ (t <> Bool /\ res = [t])).
Proof. intros n x k t rest res Hn Hx. body b_bool_to_int64. operands. clear Hn. finite. Qed.
Theorem C74_poisson_nll_loss : forall x k t rest res, tensors x = (k, t) :: rest ->
  (dtype_fn "aten.poisson_nll_loss" x = Some res <-> (In t [Half; BFloat16] /\ res = [Float]) \/ (~ In t [Half; BFloat16] /\ res = [t])).
Proof. intros x k t rest res Hx. named. operands. finite. Qed.
(** elu refuses integers if one of its numbers is floating point. *)
Theorem C74_elu : forall x k t rest res, tensors x = (k, t) :: rest ->
  (dtype_fn "aten.elu" x = Some res <-> t <> Bool /\ (In NFloat (numbers x) -> ~ integral t) /\ res = [t]).
Proof.
  intros x k t rest res Hx. named. operands.
  assert (E : existsb (fun n0 => is_float_dtype (get_dtype_of_scalar n0)) (numbers x) = true <-> In NFloat (numbers x)).
  { rewrite existsb_exists. split; [intros (m & H & E); destruct m; try discriminate; exact H|intros H; exists NFloat; auto]. }
  rewrite <- E. destruct (existsb _ (numbers x)); clear; finite.
Qed.
Theorem C74_nll_loss_forward : forall x a k t rest res, tensors x = a :: (k, t) :: rest ->
  (dtype_fn "aten.nll_loss_forward" x = Some res <-> In t [Long; Int] /\ res = [snd a; snd a]).
Proof. intros x a k t rest res Hx. named. operands. generalize (snd a). clear. intros u. rewrite mem_iff. destruct t; vm_compute; intuition congruence. Qed.
(** Operators on two tensors of one dtype. *)
Theorem C74_two_tensors : forall x k t l u rest res, tensors x = (k, t) :: (l, u) :: rest ->
  (dtype_fn "aten.cosine_similarity" x = Some res <-> t = u /\ floating t /\ res = [t]) /\
  (dtype_fn "aten.logaddexp" x = Some res <-> t <> Bool /\ u <> Bool /\ res = [t]) /\
  (dtype_fn "aten._weight_norm_interface" x = Some res <->
    t = u /\ ~ integral t /\ ((t = BFloat16 /\ res = [t; Float]) \/ (t <> BFloat16 /\ exists r, real_part t r /\ res = [t; r]))).
Proof.
  intros x k t l u rest res Hx. split; [|split].
  - named. operands. rewrite <- (st_eqb_eq t u). destruct (st_eqb t u); cbn [guard obind]; [clear; finite|split; [discriminate|intuition discriminate]].
  - named. operands. rewrite <- !st_eqb_eq. destruct (st_eqb t Bool), (st_eqb u Bool); cbn [negb andb guard obind]; unfold one; intuition congruence.
  - named. operands. setoid_rewrite real_part_iff.
    assert (S : (exists r, r = std_dtype t /\ res = [t; r]) <-> res = [t; std_dtype t]) by (split; [intros (r & -> & ->); auto|eauto]). rewrite S. clear S.
    rewrite <- (st_eqb_eq t u). destruct (st_eqb t u) eqn:E; cbn [guard obind]; [apply st_eqb_eq in E; subst u; clear; finite|split; [discriminate|intuition discriminate]].
Qed.
Example C74_nonvacuous :
  dtype_fn "aten.avg_pool2d" {| tensors := [(4, Byte)]; numbers := []; dtype := None; flag := None; mode := None |} = None /\
  dtype_fn "aten.clamp" {| tensors := [(4, Bool)]; numbers := []; dtype := None; flag := None; mode := None |} = Some [Long] /\
  dtype_fn "aten.elu" {| tensors := [(4, Int)]; numbers := [NInt; NInt; NFloat]; dtype := None; flag := None; mode := None |} = None /\
  dtype_fn "aten._weight_norm_interface" {| tensors := [(2, BFloat16); (2, BFloat16)]; numbers := []; dtype := None; flag := None; mode := None |} = Some [BFloat16; Float].
Proof. vm_compute. auto 10. Qed.

(** ** C75: matrix products *)
(** mm promotes, except that bfloat16 with float16 gives float16. *)
Theorem C75_mm : forall x a b rest res, tensors x = a :: b :: rest -> ok a -> ok b ->
  (snd a = Half /\ snd b = BFloat16) \/ (snd a = BFloat16 /\ snd b = Half) \/
  (dtype_fn "aten.mm" x = Some res <-> exists r, promoted [tensor a; tensor b] r /\ res = [r]).
Proof.
  intros x a b rest res Hx Ha Hb. named. operands.
  destruct (existsb (st_eqb (snd a)) [BFloat16; Half] && existsb (st_eqb (snd b)) [BFloat16; Half] && negb (st_eqb (snd a) (snd b))) eqn:E.
  - apply andb_true_iff in E. destruct E as [E N]. apply andb_true_iff in E. destruct E as [A B]. rewrite <- mem_iff in A, B.
    destruct A as [A|[A|[]]], B as [B|[B|[]]]; rewrite <- A, <- B in *; try discriminate; auto.
  - right; right. promotion. split.
    + intros (r & P & _ & H). exists r. split; [auto|now injection H].
    + intros (r & P & ->). exists r. split; auto. split; [eapply promoted_ordinary; [| |exact P]; [discriminate|valid_all]|reflexivity].
Qed.
Theorem C75_mm_half_types_refuted : forall x k l t u rest, tensors x = (k, t) :: (l, u) :: rest -> 0 < k -> 0 < l ->
  (t = Half /\ u = BFloat16) \/ (t = BFloat16 /\ u = Half) ->
  dtype_fn "aten.mm" x = Some [Half] /\ promoted [tensor (k, t); tensor (l, u)] Float.
Proof.
  intros x k l t u rest Hx Hk Hl H. split; [destruct H as [[-> ->]|[-> ->]]; named; operands; reflexivity|].
  exists (Some Float), None, None, None. unfold dim_types, zero_types, number_types, tensor. cbn [fst snd filter].
  destruct (Z.ltb_spec 0 k); [|lia]. destruct (Z.ltb_spec 0 l); [|lia]. destruct (Z.eqb_spec k 0); [lia|]. destruct (Z.eqb_spec l 0); [lia|].
  cbn [map]. repeat split.
  - intros y Hy. destruct H as [[-> ->]|[-> ->]], Hy as [<- |[<- |[]]]; apply leb_le; reflexivity.
  - intros c Hc. assert (A : le Half c /\ le BFloat16 c) by (destruct H as [[-> ->]|[-> ->]]; split; apply Hc; cbn; auto).
    destruct A as [A B]. apply le_leb in A, B. apply leb_le. destruct c; try discriminate; reflexivity.
Qed.
(** Vector products and batched products need equal dtypes. *)
Theorem C75_matmul_strict : forall x a b rest res, tensors x = a :: b :: rest -> (2 < fst b \/ (fst a = 1 /\ fst b = 1)) ->
  (dtype_fn "aten.matmul" x = Some res <-> snd a = snd b /\ res = [snd a]).
Proof.
  intros x a b rest res Hx H. named. operands.
  assert (E : (2 <? fst b) || ((fst a =? 1) && (fst b =? 1)) = true) by (destruct H as [H|[-> ->]]; [apply orb_true_iff; left; lia|apply orb_true_r]).
  rewrite E, <- st_eqb_eq. destruct (st_eqb (snd a) (snd b)); cbn [guard obind]; unfold one; intuition congruence.
Qed.
(** The other products take the lower of two comparable dtypes, where every other operator takes the higher. *)
Theorem C75_matmul_takes_lower_refuted : forall x a b rest, tensors x = a :: b :: rest -> ~ (2 < fst b \/ (fst a = 1 /\ fst b = 1)) ->
  (le (snd a) (snd b) -> ordinary (snd b) -> ordinary (snd a) -> dtype_fn "aten.matmul" x = Some [snd a]) /\
  (le (snd b) (snd a) -> ordinary (snd b) -> ordinary (snd a) -> dtype_fn "aten.matmul" x = Some [snd b]).
Proof.
  intros x a b rest Hx H. named. operands.
  assert (E : (2 <? fst b) || ((fst a =? 1) && (fst b =? 1)) = false).
  { apply not_true_iff_false. intros E. apply H. apply orb_true_iff in E. destruct E as [E|E]; [left; lia|right]. apply andb_true_iff in E. lia. }
  rewrite E. clear. assert (G : forall t u, ordb t = true -> ordb u = true -> leb t u = true ->
     (do p <- get_priority_of_dtype u; do q <- get_priority_of_dtype t; one (if p <? q then u else t)) = Some [t] /\
     (do p <- get_priority_of_dtype t; do q <- get_priority_of_dtype u; one (if p <? q then t else u)) = Some [t]).
  { intros t u Ot Ou L. pose proof (all2 (fun t u => implb (ordb t && ordb u && leb t u)
      (match get_priority_of_dtype t, get_priority_of_dtype u with Some p, Some q => (p <? q) || (st_eqb t u) | _, _ => false end)) ltac:(vm_compute; reflexivity) t u) as H.
    cbv beta in H. rewrite Ot, Ou, L in H. cbn [andb implb] in H. destruct (get_priority_of_dtype t) as [p|] eqn:P, (get_priority_of_dtype u) as [q|] eqn:Q; try discriminate.
    cbn [obind]. unfold one. apply orb_true_iff in H. destruct H as [H|H].
    - destruct (Z.ltb_spec p q), (Z.ltb_spec q p); try lia; try discriminate; auto.
    - apply st_eqb_eq in H. subst u. destruct (p <? q), (q <? p); auto. }
  split; intros L O1 O2; apply le_leb in L; apply ordb_iff in O1, O2; apply G; auto.
Qed.
Example C75_nonvacuous :
  dtype_fn "aten.matmul" {| tensors := [(2, Float); (2, Double)]; numbers := []; dtype := None; flag := None; mode := None |} = Some [Float] /\
  dtype_fn "aten.mm" {| tensors := [(2, Float); (2, Double)]; numbers := []; dtype := None; flag := None; mode := None |} = Some [Double] /\
  dtype_fn "aten.matmul" {| tensors := [(2, Float); (3, Double)]; numbers := []; dtype := None; flag := None; mode := None |} = None.
Proof. vm_compute. auto. Qed.

(** ** C76: complex and quantized dtypes *)
Theorem C76_view_as_real : forall x k t rest res, tensors x = (k, t) :: rest ->
  (dtype_fn "aten.view_as_real" x = Some res <-> complex t /\ exists r, complex_over r t /\ res = [r]).
Proof.
  intros x k t rest res Hx. named. operands. split.
  - destruct t; cbn; try discriminate; intros [= <-]; (split; [unfold complex; cbn; auto|]); eexists; split; try reflexivity; constructor.
  - intros (H & r & C & ->). destruct C; try reflexivity. unfold complex in H. cbn in H. intuition discriminate.
Qed.
(** polar builds complex numbers, except from 16-bit floats, which it returns. *)
Theorem C76_polar : forall x k l t rest c, tensors x = (k, t) :: (l, t) :: rest -> In t [Float; Double] ->
  (dtype_fn "aten.polar" x = Some [c] <-> complex_over t c).
Proof.
  intros x k l t rest c Hx [<- |[<- |[]]]; named; operands; (split; [intros [= <-]; constructor|intros H; inversion H; reflexivity]).
Qed.
Theorem C76_polar_needs_equal_dtypes : forall x a b rest, tensors x = a :: b :: rest -> snd a <> snd b -> dtype_fn "aten.polar" x = None.
Proof. intros x a b rest Hx N. named. operands. rewrite <- st_eqb_eq in N. destruct (st_eqb (snd a) (snd b)); [now elim N|reflexivity]. Qed.
Theorem C76_polar_half_refuted : forall x k l t rest, tensors x = (k, t) :: (l, t) :: rest -> ~ In t [Float; Double] -> dtype_fn "aten.polar" x = Some [t].
Proof. intros x k l t rest Hx N. named. operands. finite. Qed.
(** The parts of what polar builds have the dtype it was built from. *)
Theorem C76_polar_round_trip : forall x y k l m t c rest rest', tensors x = (k, t) :: (l, t) :: rest -> In t [Float; Double] ->
  dtype_fn "aten.polar" x = Some [c] -> tensors y = (m, c) :: rest' -> dtype_fn "aten.view_as_real" y = Some [t].
Proof.
  intros x y k l m t c rest rest' Hx Ht Hc Hy. apply (C76_polar x k l t rest c Hx Ht) in Hc. eapply C76_view_as_real; eauto.
  split; [|eauto]. unfold complex. destruct Hc; cbn; auto. destruct Ht as [Ht|[Ht|[]]]; discriminate.
Qed.
(** Fourier transforms: complex numbers of the same precision, integers and bfloat16 as float32. *)
Theorem C76_fft : forall n x k t rest res, In n ffts -> tensors x = (k, t) :: rest ->
  (dtype_fn n x = Some res <-> exists c, res = [c] /\
    ((complex t /\ c = t) \/ complex_over t c \/ ((integral t \/ t = BFloat16) /\ c = ComplexFloat))).
Proof.
  intros n x k t rest res Hn Hx. body b_ffts. operands. clear. split.
  - destruct t; cbn; try discriminate; intros [= <-]; eexists; (split; [reflexivity|]); unfold complex, integral; cbn;
      first [right; left; constructor | left; split; [tauto|reflexivity] | right; right; split; [tauto|reflexivity]].
  - intros (c & -> & [[H ->]|[H|[H ->]]]).
    + destruct H as [<- |[<- |[]]]; reflexivity.
    + destruct H; reflexivity.
    + destruct H as [H| ->]; [|reflexivity]. unfold integral in H. cbn in H. repeat (destruct H as [<- |H]; [reflexivity|]). destruct H.
Qed.
Theorem C76_rfft : forall x k t rest, tensors x = (k, t) :: rest ->
  (complex t -> dtype_fn "aten.fft_rfft" x = None) /\ (~ complex t -> dtype_fn "aten.fft_rfft" x = dtype_fn "aten.fft_fft" x).
Proof. intros x k t rest Hx. split; intros H; named; operands; rewrite complex_iff in H; destruct t; vm_compute in *; congruence. Qed.
(** Short time Fourier transforms: real or complex results according to return_complex, of the operand's precision. *)
Theorem C76_stft : forall n x k t rest, In n stfts -> tensors x = (k, t) :: rest ->
  (forall c, flag x = Some true -> floating t -> t <> BFloat16 -> (dtype_fn n x = Some [c] <-> complex_over t c)) /\
  (flag x = Some true -> complex t -> dtype_fn n x = Some [t]) /\
  (flag x = Some false -> floating t -> dtype_fn n x = Some [t]) /\
  (forall r, flag x = Some false -> complex t -> (dtype_fn n x = Some [r] <-> complex_over r t)) /\
  (integral t -> dtype_fn n x = Some [ComplexFloat]) /\
  (flag x = None -> ~ integral t -> dtype_fn n x = None).
Proof.
  intros n x k t rest Hn Hx. body b_stfts. repeat split; intros; operands; clear Hn;
    repeat match goal with H : integral _ |- _ => rewrite integral_iff in H | H : ~ integral _ |- _ => rewrite integral_iff in H
      | H : floating _ |- _ => rewrite floating_iff in H | H : complex _ |- _ => rewrite complex_iff in H end.
  - operands. match goal with H : context [one] |- _ => revert H end. operands. destruct t; vm_compute in *; try congruence; intros [= <-]; constructor.
  - match goal with H : complex_over _ _ |- _ => destruct H end; try reflexivity.
  - destruct t; vm_compute in *; congruence.
  - destruct t; vm_compute in *; congruence.
  - match goal with H : context [one] |- _ => revert H end. operands. destruct t; vm_compute in *; try congruence; intros [= <-]; constructor.
  - match goal with H : complex_over _ _ |- _ => destruct H end; try reflexivity; discriminate.
  - destruct (flag x) as [[]|]; destruct t; vm_compute in *; congruence.
  - destruct t; vm_compute in *; congruence.
Qed.
(** bfloat16 has no complex counterpart and is refused. *)
Theorem C76_stft_bfloat16_refuted : forall n x k rest, In n stfts -> tensors x = (k, BFloat16) :: rest -> flag x = Some true -> dtype_fn n x = None.
Proof. intros n x k rest Hn Hx Hf. body b_stfts. operands. reflexivity. Qed.
(** slogdet: the sign has the operand's dtype, the logarithm a real one. *)
Theorem C76_slogdet : forall x k t rest res, tensors x = (k, t) :: rest -> t <> ComplexHalf ->
  (dtype_fn "aten.linalg_slogdet" x = Some res <-> ~ integral t /\ t <> Half /\ t <> BFloat16 /\ exists r, real_part t r /\ res = [t; r]).
Proof.
  intros x k t rest res Hx N. named. operands. setoid_rewrite real_part_iff.
  assert (S : (exists r, r = std_dtype t /\ res = [t; r]) <-> res = [t; std_dtype t]) by (split; [intros (r & -> & ->); auto|eauto]). rewrite S. clear S. finite.
Qed.
Theorem C76_slogdet_half : forall x k rest, tensors x = (k, ComplexHalf) :: rest -> dtype_fn "aten.linalg_slogdet" x = Some [ComplexHalf; Float].
Proof. intros x k rest Hx. named. operands. reflexivity. Qed.
(** The integers of a quantized tensor have the dtype it was made from. *)
Inductive quantized_over : scalar_type -> scalar_type -> Prop :=
| q_u8 : quantized_over Byte QUInt8 | q_i8 : quantized_over Char QInt8 | q_i32 : quantized_over Int QInt32.
Theorem C76_quantized : forall n x k t q rest, In n quantized_makers -> tensors x = (k, t) :: rest -> In t [Byte; Char; Int] ->
  (dtype_fn n x = Some [q] <-> quantized_over t q).
Proof.
  intros n x k t q rest Hn Hx Ht. body b_quantized_makers. operands. destruct Ht as [<- |[<- |[<- |[]]]];
    (split; [intros [= <-]; constructor|intros H; inversion H; reflexivity]).
Qed.
Theorem C76_int_repr : forall x k t q rest, tensors x = (k, q) :: rest -> In q [QUInt8; QInt8; QInt32] ->
  (dtype_fn "aten.int_repr" x = Some [t] <-> quantized_over t q).
Proof.
  intros x k t q rest Hx Hq. named. operands. destruct Hq as [<- |[<- |[<- |[]]]];
    (split; [intros [= <-]; constructor|intros H; inversion H; reflexivity]).
Qed.
(** Other integers become qint32, other tensors are read as int32. *)
Theorem C76_quantized_default : forall n x k t rest, tensors x = (k, t) :: rest ->
  (In n quantized_makers -> ~ In t [Byte; Char] -> dtype_fn n x = Some [QInt32]) /\
  (~ In t [QUInt8; QInt8] -> dtype_fn "aten.int_repr" x = Some [Int]).
Proof.
  intros n x k t rest Hx. split.
  - intros Hn N. body b_quantized_makers. operands. clear Hn. finite.
  - intros N. named. operands. finite.
Qed.
Example C76_nonvacuous :
  dtype_fn "aten.fft_fft" {| tensors := [(2, Half)]; numbers := []; dtype := None; flag := None; mode := None |} = Some [ComplexHalf] /\
  dtype_fn "aten.polar" {| tensors := [(2, Half); (2, Half)]; numbers := []; dtype := None; flag := None; mode := None |} = Some [Half] /\
  dtype_fn "aten.polar" {| tensors := [(2, Double); (2, Double)]; numbers := []; dtype := None; flag := None; mode := None |} = Some [ComplexDouble] /\
  dtype_fn "aten.int_repr" {| tensors := [(2, QUInt8)]; numbers := []; dtype := None; flag := None; mode := None |} = Some [Byte].
Proof. vm_compute. auto 10. Qed.

(* assumptions *)
Print Assumptions C68_transcendental. Print Assumptions C68_rad2deg. Print Assumptions C68_softshrink. Print Assumptions C68_frobenius_norm.
Print Assumptions C68_division. Print Assumptions C68_division_by_number. Print Assumptions C68_division_modes. Print Assumptions C68_division_by_number_modes.
Print Assumptions C68_copysign. Print Assumptions C68_ldexp. Print Assumptions C68_ldexp_double_complex_refuted. Print Assumptions C68_ldexp_double_complex.
Print Assumptions C68_softplus_keeps_integers_refuted. Print Assumptions C69_two_tensors. Print Assumptions C69_three_tensors. Print Assumptions C69_list_of_tensors.
Print Assumptions C69_tensor_and_number. Print Assumptions C69_complex_number_refuted. Print Assumptions C69_where. Print Assumptions C69_where_numbers.
Print Assumptions C69_add_numbers. Print Assumptions C69_number_to_tensor_power. Print Assumptions C69_power_and_nll_backward. Print Assumptions C69_losses.
Print Assumptions C69_floor_division. Print Assumptions C69_floor_division_by_number. Print Assumptions C69_one_dtype. Print Assumptions C69_baddbmm.
Print Assumptions C69_leaky_relu. Print Assumptions C69_clamp. Print Assumptions C69_order_irrelevant. Print Assumptions C69_total.
Print Assumptions C70_sums. Print Assumptions C70_means. Print Assumptions C70_prims_sums. Print Assumptions C70_trace.
Print Assumptions C70_trace_dtype. Print Assumptions C70_deviations. Print Assumptions C70_var_means. Print Assumptions C70_norms.
Print Assumptions C70_norm_scalar. Print Assumptions C70_norm_scalar_half. Print Assumptions C70_any_all. Print Assumptions C70_extremes.
Print Assumptions C71_given_dtype_wins. Print Assumptions C71_defaults. Print Assumptions C71_refused_dtypes. Print Assumptions C71_randn_like.
Print Assumptions C71_ranges. Print Assumptions C71_full. Print Assumptions C71_number_tensors. Print Assumptions C71_converted_like.
Print Assumptions C71_number_of_tensor. Print Assumptions C71_softmax. Print Assumptions C72_fixed. Print Assumptions C72_infinity_tests.
Print Assumptions C72_bucketize. Print Assumptions C72_one_hot. Print Assumptions C72_bincount. Print Assumptions C72_int_mm.
Print Assumptions C73_kept. Print Assumptions C73_several_results. Print Assumptions C73_equal_dtypes. Print Assumptions C73_noise.
Print Assumptions C73_broadcast_tensors. Print Assumptions C73_reflection_pad1d. Print Assumptions C74_refused. Print Assumptions C74_fake_quantize.
Print Assumptions C74_bool_to_int64. Print Assumptions C74_poisson_nll_loss. Print Assumptions C74_elu. Print Assumptions C74_nll_loss_forward.
Print Assumptions C74_two_tensors. Print Assumptions C75_mm. Print Assumptions C75_mm_half_types_refuted. Print Assumptions C75_matmul_strict.
Print Assumptions C75_matmul_takes_lower_refuted. Print Assumptions C76_view_as_real. Print Assumptions C76_polar. Print Assumptions C76_polar_needs_equal_dtypes.
Print Assumptions C76_polar_half_refuted. Print Assumptions C76_polar_round_trip. Print Assumptions C76_fft. Print Assumptions C76_rfft.
Print Assumptions C76_stft. Print Assumptions C76_stft_bfloat16_refuted. Print Assumptions C76_slogdet. Print Assumptions C76_slogdet_half.
Print Assumptions C76_quantized. Print Assumptions C76_int_repr. Print Assumptions C76_quantized_default.
