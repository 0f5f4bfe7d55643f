(** Properties C07, C08, C14, C15 of the FX node importer. *)
From Coq Require Import String ZArith Bool Lia List.
From Verif Require Import Prelude FxGraphModel FxGraphSpec FxGraphSsa FxGraphTrace FxGraphProofs
  FxGraphCanon FxGraphTotal.
Import ListNotations.
Open Scope Z_scope.

(** The importer's assumptions about PyTorch for one graph: bool <-> uint8 casts, scalar
    overloads, canonicalised operators, and no scalar node passed as a tensor operand. *)
Definition pytorch_ok (T : Type) (W : world T) (registry : string -> option schema) (g : graph) :=
  bool_cast_ok T W /\ scalar_variants_ok T W registry g /\ canonicalize_ok T W registry g /\
  dropped_ok registry g /\ tensor_operands_ok registry g.

(** C07. The imported block, run on the inputs, returns what interpreting the graph returns. *)
Theorem C07_import_preserves_meaning : forall T W registry g inputs efin outs ops ret,
  pytorch_ok T W registry g ->
  NoDup (map n_name g) ->
  length inputs = length (placeholders g) ->
  fx_run T W [] g inputs = Some (efin, outs) ->
  meta_ok T g efin ->
  import_stateless registry g = Some (ops, ret) ->
  match ret, outs with
  | Some vs, Some xs => call_block T W ops (map vid vs) inputs = Some xs
  | None, None => True
  | _, _ => False
  end.
Proof.
  intros T W registry g inputs efin outs ops ret (H1 & H2 & H3 & H4 & H5) Hnd Hlen Hrun Hmeta Hi.
  unfold import_stateless in Hi.
  destruct (mapM n_ty (placeholders g)) as [tys|] eqn:Et; [|discriminate]. cbn [obind] in Hi.
  assert (Hl : length tys = length inputs).
  { rewrite Hlen. apply mapM_Forall2, Forall2_len in Et. auto. }
  match type of Hi with obind ?c _ = _ => destruct c as [[r s]|] eqn:Ei; [|discriminate] end.
  cbn [obind] in Hi. injection Hi as <- <-.
  set (m0 := M (combine (seq 0 (length inputs)) inputs) []).
  assert (Hids : map vid (mkvals 0 tys) = seq 0 (length inputs)).
  { rewrite mkvals_vids, Hl. reflexivity. }
  destruct (import_nodes_sim T W registry g m0 [] (fun _ _ => False) efin) with
    (N := length tys) (ns := g) (pre := @nil node) (skip := false) (e := @nil (string * fv T))
    (s := empty_st (length tys)) (m := m0) (args := mkvals 0 tys) (inputs := inputs)
    (ret := r) (s' := s) (outs := outs) as (m' & S & X & C); auto;
    try (simpl; contradiction); try (simpl; discriminate).
  - constructor; simpl; try discriminate.
    + unfold defs. simpl. now rewrite app_nil_r.
    + intros pre o post Hc. destruct pre; discriminate.
  - apply Forall_forall. intros v Hv. unfold vok. simpl.
    apply (in_map vid) in Hv. rewrite Hids in Hv. apply in_seq in Hv. lia.
  - constructor; simpl; try discriminate; try contradiction; auto.
    + apply ext_refl.
    + intros i x Hx. apply eget_combine_dom in Hx. apply in_seq in Hx. simpl. lia.
  - simpl. unfold m0. simpl.
    assert (F := eget_combine_in T (seq 0 (length inputs)) inputs []).
    rewrite app_nil_r in F. rewrite <- Hids in F at 3. rewrite <- Hids in F at 1.
    rewrite Hids in F at 1. specialize (F (seq_NoDup _ _)). rewrite seq_length in F.
    specialize (F eq_refl). revert F. generalize (combine (seq 0 (length inputs)) inputs) as ev.
    generalize (mkvals 0 tys) as vs. clear. intros vs ev. revert inputs.
    induction vs; intros inputs F; inversion F; subst; constructor; auto.
  - rewrite Et, mkvals_tys. reflexivity.
  - specialize (C eq_refl). destruct r as [vs|], outs as [xs|]; auto.
    unfold call_block. fold m0. rewrite (sim_run _ _ _ _ _ _ _ _ _ _ S). cbn [obind].
    apply mapM_Forall2. clear - C. induction C; simpl; constructor; auto. apply H.
Qed.

(** Graphs without canonicalised or retargeted operators need no assumption about operators
    except the bool cast. *)
Definition plain_op (name : string) : Prop :=
  scalar_variant name = None /\ ~ In name canonical_names.
Corollary C07_plain_graphs : forall T W registry g inputs efin outs ops ret,
  bool_cast_ok T W -> tensor_operands_ok registry g ->
  (forall n sch, In n g -> n_op n = Call (TOverload sch) \/ n_op n = Call (TConcrete sch) ->
     plain_op (s_op sch)) ->
  NoDup (map n_name g) ->
  length inputs = length (placeholders g) ->
  fx_run T W [] g inputs = Some (efin, outs) ->
  meta_ok T g efin ->
  import_stateless registry g = Some (ops, ret) ->
  match ret, outs with
  | Some vs, Some xs => call_block T W ops (map vid vs) inputs = Some xs
  | None, None => True
  | _, _ => False
  end.
Proof.
  intros T W registry g inputs efin outs ops ret Hb Ht Hp. apply C07_import_preserves_meaning.
  assert (K : forall n sch, In n g -> n_op n = Call (TOverload sch) ->
     canonicalize registry n sch = Some (Some (n_args n, n_kwargs n, sch))).
  { intros n sch Hn Ho. apply canonicalize_other. apply (Hp n sch); auto. }
  split; [exact Hb|]. split; [|split; [|split; [|exact Ht]]].
  - intros sch v sch' (n & Hn & [Ho|[Ho|(sch0 & a & kw & Ho & Hc)]]) Hv.
    + destruct (Hp n sch Hn); auto. congruence.
    + destruct (Hp n sch Hn); auto. congruence.
    + rewrite (K _ _ Hn Ho) in Hc. injection Hc as <- <- <-.
      destruct (Hp n sch0 Hn); auto. congruence.
  - intros n sch a kw sch' e rs Hn Ho Hc He. rewrite (K _ _ Hn Ho) in Hc.
    injection Hc as <- <- <-. auto.
  - intros n sch Hn Ho Hc. rewrite (K _ _ Hn Ho) in Hc. discriminate.
Qed.

(** Canonicalised operators: the call finally emitted computes the original call, given the
    operator equation. *)
Theorem C07_canonical_lift_fresh_copy : forall T W registry n e rs,
  (forall x, opsem T W "torch.aten.lift_fresh_copy" [x] = opsem T W "torch.aten.clone" [x; RNone]) ->
  registry "torch.aten.clone"%string = Some clone_schema ->
  n_args n <> [] ->
  eval_call T W e lift_fresh_copy_schema (n_args n) (n_kwargs n) = Some rs ->
  exists a kw sch, canonicalize registry n lift_fresh_copy_schema = Some (Some (a, kw, sch)) /\
    eval_call T W e sch a kw = Some rs.
Proof. exact canon_lift_fresh_copy. Qed.
Theorem C07_canonical_local_scalar_dense : forall T W registry n e x rs (fp : rv T -> bool),
  (forall x, fp x = true -> opsem T W "torch.aten._local_scalar_dense" [x] =
                            opsem T W "torch.aten.Float.Tensor" [x]) ->
  (forall x, fp x = false -> opsem T W "torch.aten._local_scalar_dense" [x] =
                             opsem T W "torch.aten.Int.Tensor" [x]) ->
  registry "torch.aten.Float.Tensor"%string = Some (float_tensor_schema "a") ->
  registry "torch.aten.Int.Tensor"%string = Some (int_tensor_schema "a") ->
  option_map (eval_arg T W e (Some JTensor)) (nth_error (n_args n) 0) = Some (Some x) ->
  n_arg0_fp n = fp x ->
  eval_call T W e local_scalar_dense_schema (n_args n) (n_kwargs n) = Some rs ->
  exists a kw sch, canonicalize registry n local_scalar_dense_schema = Some (Some (a, kw, sch)) /\
    eval_call T W e sch a kw = Some rs.
Proof. exact canon_local_scalar_dense. Qed.
Theorem C07_canonical_unsafe_index_put : forall T W registry n e rs,
  (forall l, opsem T W "torch.aten._unsafe_index_put" l =
             opsem T W "torch.aten._unsafe_index_put.hacked_twin" l) ->
  registry "torch.aten._unsafe_index_put.hacked_twin"%string = Some hacked_twin_schema ->
  eval_call T W e unsafe_index_put_schema (n_args n) (n_kwargs n) = Some rs ->
  exists a kw sch, canonicalize registry n unsafe_index_put_schema = Some (Some (a, kw, sch)) /\
    eval_call T W e sch a kw = Some rs.
Proof. exact canon_unsafe_index_put. Qed.
Theorem C07_canonical_embedding_bag : forall T W registry n e a b c d m s p l x rs,
  registry "torch.aten.embedding_bag.padding_idx"%string = Some embedding_bag_schema ->
  (3 <= length (n_args n))%nat ->
  eval_params T W e (n_args n) (n_kwargs n) 0 (s_params embedding_bag_fwd_schema) =
    Some [a; b; c; d; m; s; p; l; x] ->
  (forall q y, nth_error (n_args n) 8 = Some q \/ sget (n_kwargs n) "padding_idx" = Some q ->
     eval_elem T W e q <> Some (RBool y)) ->
  opsem T W "torch.aten.embedding_bag.padding_idx"
    [a; b; c; d; m; s; p; l;
     if (match nth_error (n_args n) 8, sget (n_kwargs n) "padding_idx" with
         | None, None => true | _, _ => false end) then RNone else x] = Some rs ->
  exists a' kw sch, canonicalize registry n embedding_bag_fwd_schema = Some (Some (a', kw, sch)) /\
    eval_call T W e sch a' kw = Some rs.
Proof. exact canon_embedding_bag. Qed.
Theorem C07_canonical_empty : forall T W registry n e a b c d m x,
  registry "torch.aten.zeros"%string = Some zeros_schema ->
  eval_params T W e (n_args n) (n_kwargs n) 0 (s_params empty_schema) = Some [a; b; c; d; m; x] ->
  exists sch, canonicalize registry n empty_schema = Some (Some (n_args n, n_kwargs n, sch)) /\
    eval_call T W e sch (n_args n) (n_kwargs n) =
      if n_zeros n then opsem T W "torch.aten.zeros" [a; b; c; d; m]
      else opsem T W "torch.aten.empty.memory_format" [a; b; c; d; m; x].
Proof. exact canon_empty. Qed.
Theorem C07_assertions_are_dropped : forall registry n ps,
  canonicalize registry n (Sch "torch.aten._assert_async.msg" ps 0) = Some None.
Proof. reflexivity. Qed.

(** C08. Imported blocks are in SSA form, and return values they define. *)
Theorem C08_imported_block_is_ssa : forall registry g ops ret,
  import_stateless registry g = Some (ops, ret) ->
  ssa (length (placeholders g)) ops /\
  (forall vs v, ret = Some vs -> In v vs -> In (vid v) (defs (length (placeholders g)) ops)).
Proof.
  intros registry g ops ret Hi. unfold import_stateless in Hi.
  destruct (mapM n_ty (placeholders g)) as [tys|] eqn:Et; [|discriminate]. cbn [obind] in Hi.
  apply mapM_Forall2, Forall2_len in Et. rewrite Et.
  match type of Hi with obind ?c _ = _ => destruct c as [[r s]|] eqn:Ei; [|discriminate] end.
  cbn [obind] in Hi. injection Hi as <- <-.
  assert (W0 : wf (length tys) (empty_st (length tys))).
  { constructor; simpl; try discriminate; [unfold defs; simpl; now rewrite app_nil_r|].
    intros pre o post Hc. destruct pre; discriminate. }
  assert (V0 : Forall (vok (empty_st (length tys))) (mkvals 0 tys)).
  { apply Forall_forall. intros v Hv. unfold vok. simpl. apply (in_map vid) in Hv.
    rewrite mkvals_vids in Hv. apply in_seq in Hv. lia. }
  destruct (import_nodes_wf _ _ _ _ _ _ _ _ _ _ _ W0 V0 Ei) as (W & _ & V).
  split; [now apply wf_ssa|]. intros vs v Hr Hv. specialize (V _ Hr).
  rewrite Forall_forall in V. specialize (V _ Hv).
  rewrite (wf_defs _ _ W). apply in_seq. unfold vok in V. lia.
Qed.

(** C14. One operand per schema parameter, holding the positional argument, else the keyword
    argument, else the default ([eval_params]). *)
Theorem C14_one_operand_per_parameter : forall attr_of ps args kw s vs s',
  import_params attr_of 0 ps args kw s = Some (vs, s') -> length vs = length ps.
Proof.
  intros attr_of ps. generalize 0%nat. induction ps as [|p r IH]; intros i args kw s vs s' H;
    cbn [import_params] in H.
  - now injection H as <- <-.
  - match type of H with obind ?c _ = _ => destruct c as [[v s1]|]; [|discriminate] end.
    cbn [obind] in H. destruct (import_params attr_of (S i) r args kw s1) as [[vs' s2]|] eqn:E;
      [|discriminate]. cbn [obind] in H. injection H as <- <-. simpl. f_equal. eauto.
Qed.
Theorem C14_operands_hold_the_completed_arguments :
  forall T W g m0 hooks0 (tracked : string -> loc -> Prop) efin,
  bool_cast_ok T W -> NoDup (map n_name g) -> meta_ok T g efin ->
  forall e s m sch args kw vs s' xs,
  sim T W g m0 hooks0 tracked efin e s m ->
  ~ scalar_operand g sch args kw ->
  import_params (g_attr g) 0 (s_params sch) args kw s = Some (vs, s') ->
  eval_params T W e args kw 0 (s_params sch) = Some xs ->
  (forall p l, tracked p l -> sget hooks0 p = Some l /\
     (forall q, sget hooks0 q = Some l -> q = p) /\
     (forall f, sget efin p = Some f -> exists x, f = FOne x)) ->
  (forall p t, sget hooks0 p = Some (HOverwrite t) -> eget T (m_env T m0) t <> None) ->
  exists m', run T W m0 (s_ops s') = Some m' /\ mapM (eget T (m_env T m')) (map vid vs) = Some xs.
Proof.
  intros T W g m0 hooks0 tracked efin H1 Hnd Hmeta
    e s m sch args kw vs s' xs Hs Hns Hi He Htrk Hmut.
  destruct (import_params_sim T W g m0 hooks0 tracked efin H1 Hnd Hmeta Htrk
    Hmut _ _ _ _ _ _ _ _ _ _ Hs Hi He) as (m' & S & _ & C).
  { intros j p k Hj Ht Ha. destruct (g_scalar g k) eqn:E; auto. exfalso. apply Hns.
    exists j, p, k. simpl in Ha. auto. }
  exists m'. split; [apply S|]. apply mapM_Forall2. clear - C. induction C; simpl; constructor; auto.
  apply H.
Qed.
(** A missing required argument is not reported: [None] is passed for it. *)
Theorem C14_missing_required_argument_refuted : forall T W attr_of p s,
  p_default p = None ->
  eval_params T W [] [] [] 0 [p] = None /\
  exists v s', import_params attr_of 0 [p] [] [] s = Some ([v], s') /\
    s_ops s' = s_ops s ++ [Op (KConst LNone) [] [s_next s]] /\ vid v = s_next s.
Proof.
  intros T W attr_of p s Hd. split.
  - simpl. unfold eval_param. simpl. now rewrite Hd.
  - simpl. rewrite Hd. simpl. eexists _, _. repeat split.
Qed.

(** C15. getitem selects the requested result; negative indices of multi-result nodes and
    indices out of range raise. *)
Theorem C15_getitem_selects : forall T W g m0 hooks0 (tracked : string -> loc -> Prop) efin,
  bool_cast_ok T W -> NoDup (map n_name g) -> meta_ok T g efin ->
  (forall p l, tracked p l -> sget hooks0 p = Some l /\
     (forall q, sget hooks0 q = Some l -> q = p) /\
     (forall f, sget efin p = Some f -> exists x, f = FOne x)) ->
  (forall p t, sget hooks0 p = Some (HOverwrite t) -> eget T (m_env T m0) t <> None) ->
  forall e s m nd r i s' x,
  sim T W g m0 hooks0 tracked efin e s m ->
  In nd g -> sget e (n_name nd) = None -> n_op nd = Call TGetitem -> ~ In (n_name nd) (s_multi s) ->
  n_args nd = [ANode r; ALit (LInt i)] ->
  (exists l, sget e r = Some (FMany l) /\ pyidx l i = Some (Some x)) \/
  (exists l, sget e r = Some (FOne (RList l)) /\ pyidx l i = Some x) ->
  sget efin (n_name nd) = Some (FOne x) ->
  import_getitem g nd s = Some s' ->
  exists m' v, run T W m0 (s_ops s') = Some m' /\
    vget (s_vals s') (n_name nd, 0%nat) = Some (BVal v) /\ eget T (m_env T m') (vid v) = Some x.
Proof.
  intros T W g m0 hooks0 tracked efin H1 Hnd Hmeta Htrk Hmut
    e s m nd r i s' x Hs Hin Hf Hop Hm Ha Hx Hef Hi.
  destruct (import_getitem_sim T W g m0 hooks0 tracked efin H1 Hnd Hmeta Htrk
    Hmut e s m nd s' x Hs Hin Hf Hop Hm Hi) as (m' & S & _); auto.
  { unfold node_value. rewrite Hop, Ha.
    destruct Hx as [[l [-> Hp]]|[l [-> Hp]]]; rewrite Hp; reflexivity. }
  assert (Hb : exists v, vget (s_vals s') (n_name nd, 0%nat) = Some (BVal v)).
  { unfold import_getitem in Hi. rewrite Ha in Hi.
    assert (B : forall v s1, bind (n_name nd) 0 (BVal v) s1 = Some s' ->
       vget (s_vals s') (n_name nd, 0%nat) = Some (BVal v)).
    { intros v s1 Hb. unfold bind in Hb. destruct (vget (s_vals s1) (n_name nd, 0%nat)); [discriminate|].
      assert (R : keyb (n_name nd, 0%nat) (n_name nd, 0%nat) = true) by now apply keyb_spec.
      match type of Hb with match ?c with _ => _ end = _ => destruct c as [[]|] end;
        simpl in Hb; injection Hb as <-; simpl; now rewrite R. }
    destruct (memb r (s_multi s)).
    - destruct (i <? 0); [discriminate|].
      destruct (resolve r (Z.to_nat i) s) as [[v s1]|]; [|discriminate]. eauto.
    - match type of Hi with obind ?c _ = _ => destruct c as [s1|]; [|discriminate] end.
      cbn [obind] in Hi. destruct (sget (s_unpack s1) r) as [vs|]; [|discriminate].
      cbn [obind] in Hi. destruct (pyidx vs i); [|discriminate]. eauto. }
  destruct Hb as [v Hb]. exists m', v. split; [apply S|]. split; auto.
  destruct (sim_vals _ _ _ _ _ _ _ _ _ _ S _ _ Hb) as [y [Hy [Hv _]]].
  unfold fvget in Hy. simpl in Hy. rewrite String.eqb_refl in Hy. congruence.
Qed.
(** However many getitems there are, each list-valued node is unpacked at most once: the
    block contains exactly one unpacking per unpacked node. *)
Theorem C15_unpacked_once_per_node : forall registry g tys s ret,
  import_nodes (g_attr g) (g_scalar g) registry g false g (mkvals 0 tys)
    (empty_st (length tys)) = Some (ret, s) ->
  NoDup (map fst (s_unpack s)) /\ unpacks (s_ops s) = length (s_unpack s).
Proof.
  intros registry g tys s ret H.
  assert (Hall : forall a, okarg (fun _ => True) (fun _ => True) (g_attr g) a).
  { fix IH 1. intros [n|l|l|l].
    - constructor. split; auto. intros [] _; exact I.
    - constructor. destruct l; exact I.
    - constructor. induction l; constructor; auto.
    - constructor. induction l; constructor; auto. }
  assert (Hd : forall d, okdflt (fun _ => True) d).
  { intros [[]|l]; simpl; auto. apply Forall_forall. intros [] _; exact I. }
  apply (import_nodes_steps (fun _ => True) (fun _ => True)) in H.
  - apply steps_unpack in H; [|split; [reflexivity|constructor]]. destruct H. auto.
  - intros k sch _ p d _ _. apply Hd.
  - apply Forall_forall. intros n _. split; [|split].
    + apply Forall_forall. intros a _. apply Hall.
    + intros k a _. apply Hall.
    + intros sch _ p d _ _. apply Hd.
Qed.
(** A getitem of a node that was already unpacked emits no operation (no hook on it). *)
Theorem C15_later_getitems_emit_nothing : forall g nd s s' r i vs,
  n_args nd = [ANode r; ALit (LInt i)] -> memb r (s_multi s) = false ->
  sget (s_unpack s) r = Some vs -> sget (s_hooks s) (n_name nd) = None ->
  import_getitem g nd s = Some s' ->
  s_ops s' = s_ops s /\ exists v, pyidx vs i = Some v /\
    vget (s_vals s') (n_name nd, 0%nat) = Some (BVal v).
Proof.
  intros g nd s s' r i vs Ha Hm Hu Hh H. unfold import_getitem in H.
  rewrite Ha, Hm, Hu in H. cbn [obind] in H. rewrite Hu in H. cbn [obind] in H.
  destruct (pyidx vs i) as [v|]; [|discriminate]. cbn [obind] in H. unfold bind in H.
  destruct (vget (s_vals s) (n_name nd, 0%nat)); [discriminate|]. simpl in H. rewrite Hh in H.
  injection H as <-. split; auto. exists v. split; auto. simpl.
  assert (keyb (n_name nd, 0%nat) (n_name nd, 0%nat) = true) as -> by now apply keyb_spec.
  reflexivity.
Qed.

(** ** Non-vacuity: a graph with a scalar overload, a list-valued node, a multi-result node,
    a bool constant and two outputs; all hypotheses of C07 hold and the import succeeds. *)
Section Example.
Local Open Scope string_scope.
Definition ex_mul := Sch "torch.aten.mul.Tensor" [P "self" JTensor None; P "other" JTensor None] 1.
Definition ex_muls := Sch "torch.aten.mul.Scalar" [P "self" JTensor None; P "other" JNumber None] 1.
Definition ex_split := Sch "torch.aten.split" [P "self" JTensor None; P "sizes" (JList JInt) None;
  P "dim" JInt (Some (DLit (LInt 0)))] 1.
Definition ex_max := Sch "torch.aten.max.dim" [P "self" JTensor None; P "dim" JInt None;
  P "keepdim" JBool (Some (DLit (LBool false)))] 2.
Definition ex_where := Sch "torch.aten.where.self" [P "condition" JTensor None;
  P "self" JTensor None; P "other" JTensor None] 1.
Definition ex_reg (n : string) := if String.eqb n "torch.aten.mul.Scalar" then Some ex_muls else None.
Definition ex_nd name o a t ts sc := Nd name o a [] t ts sc false false.
Definition ex_graph : graph := [
  ex_nd "x" Placeholder [] (Some TyVTensor) None false;
  ex_nd "p" Placeholder [] (Some TyInt) None true;
  ex_nd "m" (Call (TOverload ex_mul)) [ANode "x"; ALit (LInt 3)] (Some TyVTensor) None false;
  ex_nd "s" (Call (TConcrete ex_split)) [ANode "x"; AList [ALit (LInt 1); ANode "p"]]
     (Some (TyList TyVTensor)) (Some [TyVTensor; TyVTensor]) false;
  ex_nd "g0" (Call TGetitem) [ANode "s"; ALit (LInt 0)] (Some TyVTensor) None false;
  ex_nd "g1" (Call TGetitem) [ANode "s"; ALit (LInt (-1))] (Some TyVTensor) None false;
  ex_nd "mx" (Call (TConcrete ex_max)) [ANode "g1"; ALit (LInt 0)] None (Some [TyVTensor; TyVTensor]) false;
  ex_nd "v" (Call TGetitem) [ANode "mx"; ALit (LInt 1)] (Some TyVTensor) None false;
  ex_nd "c" (GetAttr (Some (LTensor 7 true))) [] (Some TyVTensor) None false;
  ex_nd "w" (Call (TConcrete ex_where)) [ANode "c"; ANode "v"; ANode "m"] (Some TyVTensor) None false;
  ex_nd "output" Output [ATuple [ANode "w"; ANode "g0"; ANode "p"]] None None false].
Definition ex_num (v : rv Z) : Z :=
  match v with RInt z => z | RFloat f => f | RBool b => if b then 1 else 0 | _ => 0 end.
Definition ex_op (n : string) (l : list (rv Z)) : option (list (rv Z)) :=
  if String.eqb n "torch.aten.mul.Tensor" then
    match l with [RT a; RT b] => Some [RT (a * b)] | _ => None end
  else if String.eqb n "torch.aten.mul.Scalar" then
    match l with [RT a; b] => Some [RT (a * ex_num b)] | _ => None end
  else if String.eqb n "torch.aten.split" then
    match l with
    | [RT a; RList [RInt i; RInt j]; RInt d] => Some [RList [RT (a + i); RT (a * 10 + j)]]
    | _ => None end
  else if String.eqb n "torch.aten.max.dim" then
    match l with [RT a; RInt d; RBool false] => Some [RT a; RT (a + 1)] | _ => None end
  else if String.eqb n "torch.aten.where.self" then
    match l with [RT c; RT a; RT b] => Some [RT (c + 1000 * a + b)] | _ => None end
  else if String.eqb n convert_elt then
    match l with [RT a; RInt k] => Some [RT (a - k)] | _ => None end
  else None.
Definition ex_W : world Z := {| tensor_of := Z.of_nat; u8_of := fun i => Z.of_nat i + 11;
  num_tensor := ex_num; float_of_bool := fun b => if b then 1 else 0; opsem := ex_op |}.

Example C07_nonvacuous :
  pytorch_ok Z ex_W ex_reg ex_graph /\ NoDup (map n_name ex_graph) /\
  exists efin outs ops ret, fx_run Z ex_W [] ex_graph [RT 5; RInt 2] = Some (efin, Some outs) /\
    meta_ok Z ex_graph efin /\ import_stateless ex_reg ex_graph = Some (ops, Some ret) /\
    outs = [RT 53022; RT 6; RInt 2] /\
    call_block Z ex_W ops (map vid ret) [RT 5; RInt 2] = Some outs /\ unpacks ops = 1%nat.
Proof.
  split; [|split].
  - split; [|split; [|split; [|split]]].
    + intros id. change (Some [RT (Z.of_nat id + 11 - bool_code)] = Some [RT (Z.of_nat id)]).
      replace (Z.of_nat id + 11 - bool_code) with (Z.of_nat id); [reflexivity|].
      unfold bool_code. lia.
    + intros sch v sch' (n & Hn & Hu) Hv Hr.
      assert (Hs : sch = ex_mul).
      { destruct Hu as [Hu|[Hu|(sch0 & a & kw & Hu & Hc)]];
        simpl in Hn; repeat destruct Hn as [<-|Hn]; try contradiction; simpl in Hu; try discriminate;
        injection Hu as <-; try discriminate; auto.
        cbn in Hc. congruence. }
      subst sch. cbn in Hv. injection Hv as <-. cbn in Hr. injection Hr as <-.
      repeat split; auto.
      * repeat eexists.
      * intros x s r Hs. destruct x, s, r; try discriminate; reflexivity.
    + intros n sch a kw sch' e rs Hn Ho Hc He.
      assert (canonicalize ex_reg n sch = Some (Some (n_args n, n_kwargs n, sch))).
      { simpl in Hn; repeat destruct Hn as [<-|Hn]; try contradiction; simpl in Ho; try discriminate.
        injection Ho as <-. reflexivity. }
      rewrite H in Hc. injection Hc as <- <- <-. auto.
    + intros n sch Hn Ho Hc.
      simpl in Hn; repeat destruct Hn as [<-|Hn]; try contradiction; simpl in Ho; try discriminate.
      injection Ho as <-. discriminate.
    + assert (G : forall sch args, (forall i p m, nth_error (s_params sch) i = Some p ->
         p_type p = JTensor -> nth_error args i = Some (ANode m) -> g_scalar ex_graph m = false) ->
         ~ scalar_operand ex_graph sch args []).
      { intros sch args H (i & p & m & Hi & Hp & [Ha|[_ Ha]] & Hg); [|discriminate].
        rewrite (H i p m Hi Hp Ha) in Hg. discriminate. }
      intros n Hn. split; [|split].
      * intros sch a kw sch' sch'' Ho Hc Hp.
        simpl in Hn; repeat destruct Hn as [<-|Hn]; try contradiction; simpl in Ho; try discriminate.
        injection Ho as <-. cbn in Hc. injection Hc as <- <- <-. cbn in Hp. injection Hp as <-.
        apply G. intros [|[|i]] p m Hi Ht Ha; try discriminate; simpl in Ha.
        injection Ha as <-. reflexivity. destruct i; discriminate.
      * intros sch sch' Ho Hp.
        simpl in Hn; repeat destruct Hn as [<-|Hn]; try contradiction; simpl in Ho; try discriminate;
        injection Ho as <-; cbn in Hp; injection Hp as <-;
        apply G; (intros [|[|[|i]]] p m Hi Ht Ha; try discriminate; simpl in Ha, Hi;
          try (injection Ha as <-; reflexivity); try (injection Hi as <-; discriminate);
          destruct i; discriminate).
      * intros sch Ho.
        simpl in Hn; repeat destruct Hn as [<-|Hn]; try contradiction; simpl in Ho; discriminate.
  - apply (NoDup_nth _ ""). simpl. intros i j Hi Hj.
    do 11 (destruct i as [|i]; [do 11 (destruct j as [|j]; [try discriminate; try reflexivity|]); lia|]).
    lia.
  - eexists _, _, _, _. split; [vm_compute; reflexivity|]. split; [|split; [vm_compute; reflexivity|]].
    + intros n f Hn Hf.
      simpl in Hn; repeat destruct Hn as [<-|Hn]; try contradiction; vm_compute in Hf; try discriminate;
      injection Hf as <-; simpl; repeat split; try discriminate; intros; simpl in *;
      repeat match goal with H : Some _ = Some _ |- _ => injection H; clear H; intros; subst end;
      simpl; auto; try discriminate;
      repeat match goal with H : RList _ = RList _ |- _ => injection H; clear H; intros; subst end;
      repeat constructor.
    + vm_compute. repeat split; reflexivity.
Qed.
End Example.

(** ** Success: every well-scoped graph is imported (operator calls with completed
    arguments of fitting types, list and multi-result getitems, get_attr nodes that are not
    operands, one output). *)
Theorem C07_well_scoped_graphs_are_imported : forall registry g,
  graph_scoped registry g [] g -> exists ops vs, import_stateless registry g = Some (ops, Some vs).
Proof.
  intros registry g H. destruct (scoped_types _ _ _ _ H) as [tys Ht].
  destruct (graph_ok registry g [] g tys 0 (empty_st (length tys)) H) as (vs & s & E); auto.
  { split; [split; [auto|split; [discriminate|split; [discriminate|discriminate]]]|auto]. }
  unfold import_stateless. rewrite Ht. cbn [obind]. rewrite E. cbn [obind]. eauto.
Qed.
(** The overload an arithmetic call is imported as: the scalar one exactly when its second
    argument is a number. *)
Theorem C07_scalar_overload_selected : forall registry g sch args sch',
  uses registry g sch args sch' -> pick_schema (g_scalar g) registry sch args = Some sch'.
Proof. exact uses_pick. Qed.
(** Bool is the twelfth entry of c10's ScalarType enumeration. *)
Theorem C07_bool_tensors_are_cast_to_bool :
  nth_error ["Byte"; "Char"; "Short"; "Int"; "Long"; "Half"; "Float"; "Double"; "ComplexHalf";
             "ComplexFloat"; "ComplexDouble"; "Bool"; "QInt8"; "QUInt8"; "QInt32"; "BFloat16"]%string
    (Z.to_nat bool_code) = Some "Bool"%string.
Proof. reflexivity. Qed.

(** A literal list is accepted by a parameter exactly when the parameter takes lists and
    every element has the element type (or is None, if elements are optional). *)
Theorem C14_literal_lists_accepted : forall attr_of e l s,
  (exists v s', import_list attr_of (Some e) (map ALit l) s = Some (v, s')) <->
  exists t o, list_of e t o /\ Forall (conforms t o) l.
Proof.
  intros attr_of e l s. unfold import_list. split.
  - intros (v & s' & H). destruct (elem_type (Some e)) as [[t o]|] eqn:E; [|discriminate].
    exists t, o. split; [now apply elem_type_spec|]. cbn [obind] in H.
    destruct (import_elems attr_of t o (map ALit l) s) as [[vs s1]|] eqn:E1; [|discriminate]. clear H E.
    revert s vs s1 E1. induction l as [|x r IH]; intros s vs s1 E1; [constructor|].
    cbn [map import_elems import_elem] in E1.
    destruct (lit_elem_ok t o x) eqn:Ex; [|discriminate]. cbn [guard obind] in E1.
    destruct (import_const x s) as [[v1 s2]|]; [|discriminate]. cbn [obind] in E1.
    destruct (import_elems attr_of t o (map ALit r) s2) as [[vs2 s3]|] eqn:E2; [|discriminate].
    constructor; [now apply lit_elem_spec|eauto].
  - intros (t & o & Ht & Hl). apply elem_type_spec in Ht. rewrite Ht. cbn [obind].
    assert (A : exists vs s1, import_elems attr_of t o (map ALit l) s = Some (vs, s1)).
    { clear Ht. revert s. induction Hl as [|x r Hx _ IH]; intros s; [cbn; eauto|].
      cbn [map import_elems import_elem]. assert (Hx' := Hx). apply lit_elem_spec in Hx. rewrite Hx.
      assert (exists v1 s2, import_const x s = Some (v1, s2)) as (v1 & s2 & ->)
        by (destruct (const_same x s) as (v1 & s2 & E & _); [destruct Hx'; discriminate|eauto]).
      cbn [guard obind]. destruct (IH s2) as (vs & s1 & ->). cbn [obind]. eauto. }
    destruct A as (vs & s1 & ->). cbn [obind emit1 fst snd]. unfold emit1. eexists _, _. reflexivity.
Qed.
(** A node is accepted as an element only if its value has the element type. *)
Theorem C14_list_elements_have_the_element_type : forall attr_of t o n s v s',
  import_elem attr_of t o (ANode n) s = Some (v, s') -> elem_fits t (vty v).
Proof.
  intros attr_of t o n s v s' H. unfold import_elem in H. destruct (memb n (s_multi s)); [discriminate|].
  match type of H with obind ?c _ = _ => destruct c as [s1|]; [|discriminate] end. cbn [obind] in H.
  match type of H with obind ?c _ = _ => destruct c as [[w s2]|]; [|discriminate] end. cbn [obind] in H.
  destruct (node_elem_ok t w) eqn:E; [|discriminate]. cbn [guard obind] in H. injection H as <- <-.
  now apply node_elem_spec.
Qed.
(** The constructed list is typed by the parameter. *)
Theorem C14_list_argument_type : forall attr_of e l s v s' t o,
  import_list attr_of (Some e) l s = Some (v, s') -> list_of e t o ->
  vty v = if o then TyListOpt (elem_ty t) else TyList (elem_ty t).
Proof.
  intros attr_of e l s v s' t o H Hl. apply elem_type_spec in Hl. unfold import_list in H. rewrite Hl in H.
  cbn [obind] in H. destruct (import_elems attr_of t o l s) as [[vs s1]|]; [|discriminate].
  cbn [obind] in H. injection H as <- _. simpl. destruct o, t; reflexivity.
Qed.
Section ScopedExample.
Local Open Scope string_scope.
Definition ex_scoped : graph := [
  ex_nd "x" Placeholder [] (Some TyVTensor) None false;
  ex_nd "p" Placeholder [] (Some TyInt) None true;
  ex_nd "m" (Call (TConcrete ex_mul)) [ANode "x"; ALit (LInt 3)] (Some TyVTensor) None false;
  ex_nd "s" (Call (TConcrete ex_split)) [ANode "m"; AList [ALit (LInt 1); ANode "p"]]
     (Some (TyList TyVTensor)) (Some [TyVTensor; TyVTensor]) false;
  ex_nd "g1" (Call TGetitem) [ANode "s"; ALit (LInt (-1))] (Some TyVTensor) None false;
  ex_nd "mx" (Call (TConcrete ex_max)) [ANode "g1"; ALit (LInt 0)] None (Some [TyVTensor; TyVTensor]) false;
  ex_nd "v" (Call TGetitem) [ANode "mx"; ALit (LInt 1)] (Some TyVTensor) None false;
  ex_nd "output" Output [ATuple [ANode "v"; ANode "p"]] None None false].
Example C07_success_nonvacuous : graph_scoped ex_reg ex_scoped [] ex_scoped.
Proof.
  apply gs_ph with (t := TyVTensor); auto. apply gs_ph with (t := TyInt); auto.
  apply gs_body; [|reflexivity].
  eapply bs_node with (e' := (_, One TyVTensor) :: _).
  { eapply ns_call with (sch := ex_mul) (sch' := ex_muls); try reflexivity.
    - discriminate.
    - apply us_scalar with (a := ALit (LInt 3)) (v := "torch.aten.mul.Scalar"); try reflexivity; [|simpl; auto].
      unfold number_arg. eauto.
    - intros [|[|[|i]]] q Hq; try discriminate; injection Hq as <-; cbn.
      + eapply as_node; reflexivity.
      + apply as_lit; discriminate.
    - exists TyVTensor. auto. }
  eapply bs_node with (e' := (_, One (TyList TyVTensor)) :: _).
  { eapply ns_call with (sch := ex_split) (sch' := ex_split); try reflexivity.
    - discriminate.
    - apply us_plain. simpl. intuition discriminate.
    - intros [|[|[|[|i]]]] q Hq; try discriminate; injection Hq as <-; cbn.
      + eapply as_node; reflexivity.
      + apply as_list with (t := JInt) (o := false); [exists JInt; split; [constructor; simpl; auto|auto]|].
        repeat constructor. eapply es_node; try reflexivity. right. split; [discriminate|reflexivity].
      + constructor. discriminate.
    - eexists. split; reflexivity. }
  eapply bs_node with (e' := (_, One TyVTensor) :: _).
  { eapply ns_getitem_list with (r := "s") (i := (-1)%Z); try reflexivity.
    exists TyVTensor. simpl. auto 10. }
  eapply bs_node with (e' := (_, Many [TyVTensor; TyVTensor]) :: _).
  { eapply ns_call with (sch := ex_max) (sch' := ex_max); try reflexivity.
    - discriminate.
    - apply us_plain. simpl. intuition discriminate.
    - intros [|[|[|[|i]]]] q Hq; try discriminate; injection Hq as <-; cbn.
      + eapply as_node; reflexivity.
      + apply as_lit; discriminate.
      + constructor. discriminate.
    - cbn. eexists. split; [reflexivity|split; [simpl; auto|reflexivity]]. }
  eapply bs_node with (e' := (_, One TyVTensor) :: _).
  { eapply ns_getitem_many with (r := "mx") (i := 1%Z); try reflexivity; [lia|simpl; auto]. }
  eapply bs_out; try reflexivity. eexists. split; [right; reflexivity|].
  repeat constructor; eapply as_node; reflexivity.
Qed.
End ScopedExample.

Print Assumptions C07_import_preserves_meaning.
Print Assumptions C07_plain_graphs.
Print Assumptions C07_canonical_lift_fresh_copy.
Print Assumptions C07_canonical_local_scalar_dense.
Print Assumptions C07_canonical_unsafe_index_put.
Print Assumptions C07_canonical_embedding_bag.
Print Assumptions C07_canonical_empty.
Print Assumptions C07_assertions_are_dropped.
Print Assumptions C08_imported_block_is_ssa.
Print Assumptions C14_one_operand_per_parameter.
Print Assumptions C14_operands_hold_the_completed_arguments.
Print Assumptions C14_missing_required_argument_refuted.
Print Assumptions C15_getitem_selects.
Print Assumptions C15_unpacked_once_per_node.
Print Assumptions C15_later_getitems_emit_nothing.
Print Assumptions C07_well_scoped_graphs_are_imported.
Print Assumptions C07_scalar_overload_selected.
Print Assumptions C07_bool_tensors_are_cast_to_bool.
Print Assumptions C14_literal_lists_accepted.
Print Assumptions C14_list_elements_have_the_element_type.
Print Assumptions C14_list_argument_type.
