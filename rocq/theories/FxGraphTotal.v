(** The import succeeds on every well-scoped graph, and the types of list arguments. *)
From Coq Require Import String ZArith Bool Lia List.
From Verif Require Import Prelude FxGraphModel FxGraphSpec FxGraphSsa FxGraphTrace FxGraphProofs.
Import ListNotations.
Open Scope list_scope.

(** ** Specification: when an argument fits a parameter *)
Inductive elem_of : jt -> jt -> bool -> Prop :=
| eo_plain : forall t, In t [JInt; JFloat; JString; JBool; JTensor] -> elem_of t t false
| eo_opt : forall t, In t [JInt; JFloat; JString; JBool; JTensor] -> elem_of (JOpt t) t true.
(** A parameter type that accepts Python lists: element type, optional elements. *)
Definition list_of (e t : jt) (o : bool) : Prop :=
  exists u, elem_of u t o /\ (e = JList u \/ e = JList (JList u) \/ e = JOpt (JList u)).
(** Literals allowed as elements. *)
Inductive conforms : jt -> bool -> lit -> Prop :=
| cf_int : forall o z, conforms JInt o (LInt z)
| cf_float : forall o f, conforms JFloat o (LFloat f)
| cf_str : forall o x, conforms JString o (LStr x)
| cf_bool : forall o b, conforms JBool o (LBool b)
| cf_none : forall t, conforms t true LNone.
Definition elem_ty (t : jt) : ty :=
  match t with JInt => TyInt | JFloat => TyFloat | JString => TyStr | JBool => TyBool | _ => TyVTensor end.
(** The type mentions vtensor. *)
Inductive mentions_vtensor : ty -> Prop :=
| mv_here : mentions_vtensor TyVTensor
| mv_list : forall t, mentions_vtensor t -> mentions_vtensor (TyList t)
| mv_listopt : forall t, mentions_vtensor t -> mentions_vtensor (TyListOpt t).
(** The type of a node's value fits the element type. *)
Definition elem_fits (t : jt) (x : ty) : Prop :=
  (t = JTensor /\ mentions_vtensor x) \/ (t <> JTensor /\ x = elem_ty t).

Lemma ty_eqb_spec : forall a b, ty_eqb a b = true <-> a = b.
Proof.
  induction a; intros b; destruct b; simpl; split; intros H; try discriminate; auto;
    try (apply IHa in H; congruence); try (injection H as <-; now apply IHa).
Qed.
Lemma elem_type_spec : forall e t o, elem_type (Some e) = Some (t, o) <-> list_of e t o.
Proof.
  intros e t o. split.
  - intros H. unfold elem_type in H.
    assert (E : forall u, (match u with
        | JOpt w => option_map (fun x => (x, true)) (match w with JInt | JFloat | JString | JBool | JTensor => Some w | _ => None end)
        | _ => option_map (fun x => (x, false)) (match u with JInt | JFloat | JString | JBool | JTensor => Some u | _ => None end) end)
        = Some (t, o) -> elem_of u t o).
    { intros u Hu. destruct u; simpl in Hu; try discriminate; try (injection Hu as <- <-; constructor; simpl; tauto).
      destruct u; simpl in Hu; try discriminate; injection Hu as <- <-; constructor; simpl; tauto. }
    destruct e as [| | | | | | |e|e]; try discriminate.
    + destruct e as [| | | | | | |e|e];
        match goal with
        | |- list_of (JList (JList ?x)) _ _ => exists x; split; [apply E; exact H|auto]
        | |- list_of (JList ?x) _ _ => exists x; split; [apply (E x); exact H|auto]
        end.
    + destruct e as [| | | | | | |e|e]; try discriminate. exists e. split; [apply E; exact H|auto].
  - intros (u & Hu & He). destruct Hu as [t Ht|t Ht]; simpl in Ht;
    repeat destruct Ht as [<-|Ht]; try contradiction; destruct He as [->|[->| ->]]; reflexivity.
Qed.
Lemma lit_elem_spec : forall t o l, lit_elem_ok t o l = true <-> conforms t o l.
Proof.
  intros t o l. split.
  - destruct l, t; simpl; intros H; try discriminate; subst; constructor.
  - destruct 1; simpl; auto.
Qed.
Lemma has_vtensor_spec : forall t, has_vtensor t = true <-> mentions_vtensor t.
Proof.
  induction t; simpl; split; intros H; try discriminate; try (now constructor); try (inversion H; fail);
    try (constructor; tauto); inversion H; subst; tauto.
Qed.
Lemma node_elem_spec : forall t v, node_elem_ok t v = true <-> elem_fits t (vty v).
Proof.
  intros t v. unfold node_elem_ok, elem_fits. destruct t;
    (split; [intros H; (left; split; [reflexivity|now apply has_vtensor_spec]) ||
                        (right; split; [discriminate|apply ty_eqb_spec in H; exact H])
            |intros [[H1 H2]|[H1 H2]]; try discriminate; try congruence;
             (now apply has_vtensor_spec) || (now apply ty_eqb_spec)]).
Qed.

(** ** Well-scoped graphs *)
(** What a node is known to be bound to: one value, or several results. *)
Inductive nk := One (t : ty) | Many (ts : list ty).
Definition importable (l : lit) : Prop := l <> LEnum None.
Section Scoped.
Variable registry : string -> option schema.
Variable g : graph.
Notation attr := (g_attr g).
Notation scal := (g_scalar g).

Inductive elem_scoped (e : list (string * nk)) (t : jt) (o : bool) : arg -> Prop :=
| es_lit : forall l, conforms t o l -> elem_scoped e t o (ALit l)
| es_node : forall n x, attr n = None -> sget e n = Some (One x) -> elem_fits t x ->
    elem_scoped e t o (ANode n).
Inductive arg_scoped (e : list (string * nk)) : option jt -> arg -> Prop :=
| as_node : forall q n x, attr n = None -> sget e n = Some (One x) -> arg_scoped e q (ANode n)
| as_lit : forall q l, q <> Some JTensor -> importable l -> arg_scoped e q (ALit l)
| as_tensor : forall i b, arg_scoped e (Some JTensor) (ALit (LTensor i b))
| as_bool : forall b, arg_scoped e (Some JTensor) (ALit (LBool b))
| as_int : forall z, arg_scoped e (Some JTensor) (ALit (LInt z))
| as_float : forall f, arg_scoped e (Some JTensor) (ALit (LFloat f))
| as_list : forall q t o l, list_of q t o -> Forall (elem_scoped e t o) l ->
    arg_scoped e (Some q) (AList l).
Inductive dflt_scoped (q : jt) : option dflt -> Prop :=
| ds_none : dflt_scoped q None
| ds_lit : forall l, importable l -> dflt_scoped q (Some (DLit l))
| ds_list : forall t o l, list_of q t o -> Forall (conforms t o) l -> dflt_scoped q (Some (DList l)).
(** Positional argument, else keyword argument, else the default. *)
Definition param_scoped (e : list (string * nk)) (args : list arg) (kw : list (string * arg))
    (i : nat) (q : param) : Prop :=
  match nth_error args i, sget kw (p_name q) with
  | Some a, _ | None, Some a => arg_scoped e (Some (p_type q)) a
  | None, None => dflt_scoped (p_type q) (p_default q)
  end.
Definition params_scoped e ps args kw : Prop :=
  forall i q, nth_error ps i = Some q -> param_scoped e args kw i q.
(** The list types whose elements can be unpacked. *)
Definition unpackable (t : ty) : Prop :=
  exists x, In x [TyInt; TyFloat; TyStr; TyBool; TyTensor; TyVTensor] /\ (t = TyList x \/ t = TyListOpt x).
(** The second operand of an arithmetic operator with a scalar overload is a number. *)
Definition number_arg (a : arg) : Prop :=
  (exists b, a = ALit (LBool b)) \/ (exists z, a = ALit (LInt z)) \/ (exists f, a = ALit (LFloat f)) \/
  (exists n, a = ANode n /\ scal n = true).
Definition scalar_overloads : list (string * string) :=
  [("torch.aten.mul.Tensor", "torch.aten.mul.Scalar"); ("torch.aten.div.Tensor", "torch.aten.div.Scalar");
   ("torch.aten.add.Tensor", "torch.aten.add.Scalar"); ("torch.aten.sub.Tensor", "torch.aten.sub.Scalar");
   ("torch.aten.floor_divide", "torch.aten.floor_divide.Scalar")]%string.
(** The schema actually used. *)
Inductive uses (sch : schema) (args : list arg) : schema -> Prop :=
| us_plain : ~ In (s_op sch) (map fst scalar_overloads) -> uses sch args sch
| us_tensor : forall a, nth_error args 1 = Some a -> ~ number_arg a -> uses sch args sch
| us_scalar : forall a v sch', nth_error args 1 = Some a -> number_arg a ->
    In (s_op sch, v) scalar_overloads -> registry v = Some sch' -> uses sch args sch'.
Inductive node_scoped (e : list (string * nk)) (n : node) : list (string * nk) -> Prop :=
| ns_call : forall sch sch' r, n_op n = Call (TConcrete sch) ->
    s_op sch <> "torch.aten.as_strided"%string -> uses sch (n_args n) sch' ->
    params_scoped e (s_params sch') (n_args n) (n_kwargs n) -> sget e (n_name n) = None ->
    match s_returns sch' with
    | 0%nat => r = Many []
    | 1%nat => exists t, n_ty n = Some t /\ r = One t
    | _ => exists ts, n_tys n = Some ts /\ (1 < length ts)%nat /\ r = Many ts
    end -> node_scoped e n ((n_name n, r) :: e)
| ns_getitem_many : forall r i ts t, n_op n = Call TGetitem -> n_args n = [ANode r; ALit (LInt i)] ->
    sget e r = Some (Many ts) -> (0 <= i)%Z -> nth_error ts (Z.to_nat i) = Some t -> (1 < length ts)%nat ->
    sget e (n_name n) = None -> node_scoped e n ((n_name n, One t) :: e)
| ns_getitem_list : forall r i x ts t, n_op n = Call TGetitem -> n_args n = [ANode r; ALit (LInt i)] ->
    sget e r = Some (One x) -> unpackable x -> obind (find_node g r) n_tys = Some ts ->
    pyidx ts i = Some t ->
    sget e (n_name n) = None -> node_scoped e n ((n_name n, One t) :: e)
| ns_other : (exists l, n_op n = GetAttr l) \/ n_op n = OtherOp -> node_scoped e n e.
(** Placeholders, then calls, then one output. *)
Inductive body_scoped : list (string * nk) -> list node -> Prop :=
| bs_out : forall e n outs a, n_op n = Output -> n_args n = a :: outs ->
    (exists l, (a = AList l \/ a = ATuple l) /\ Forall (arg_scoped e None) l) -> body_scoped e [n]
| bs_node : forall e n e' r, node_scoped e n e' -> body_scoped e' r -> body_scoped e (n :: r).
Inductive graph_scoped : list (string * nk) -> list node -> Prop :=
| gs_body : forall e ns, body_scoped e ns -> placeholders ns = [] -> graph_scoped e ns
| gs_ph : forall e n r t, n_op n = Placeholder -> n_ty n = Some t -> sget e (n_name n) = None ->
    graph_scoped ((n_name n, One t) :: e) r -> graph_scoped e (n :: r).

(** ** Proof *)
Definition same (s s' : st) : Prop := s_vals s' = s_vals s /\ s_hooks s' = s_hooks s /\
  s_multi s' = s_multi s /\ s_unpack s' = s_unpack s.
Lemma same_refl : forall s, same s s. Proof. firstorder. Qed.
Lemma same_trans : forall a b c, same a b -> same b c -> same a c.
Proof. unfold same. intros a b c (A & B & C & D) (E & F & G & H). repeat split; congruence. Qed.
Lemma emit1_same : forall k a t s v s', emit1 k a t s = (v, s') -> same s s' /\ vty v = t.
Proof. intros k a t s v s' [= <- <-]. split; auto. now repeat split. Qed.
Lemma const_same : forall l s, importable l -> exists v s', import_const l s = Some (v, s') /\ same s s'.
Proof.
  intros l s H. destruct l as [| | | | | |[c|]|]; simpl; try (eexists _, _; split; [reflexivity|now repeat split]).
  now elim H.
Qed.
Lemma literal_same : forall l s, importable l -> exists v s', import_literal l s = Some (v, s') /\ same s s'.
Proof.
  intros l s H. destruct l as [| | | | |i [|]| |]; try (apply const_same; exact H).
  simpl. eexists _, _. split; [reflexivity|now repeat split].
Qed.
Lemma convert_same : forall v e s v' s', convert_type v e s = (v', s') -> same s s'.
Proof.
  intros v e s v' s' H. unfold convert_type in H.
  repeat match type of H with context [match ?x with _ => _ end] => destruct x end;
  try (injection H as <- <-; apply same_refl); apply emit1_same in H; tauto.
Qed.
Definition inv0 (e : list (string * nk)) (s : st) : Prop :=
  s_hooks s = [] /\
  (forall n t, sget e n = Some (One t) -> memb n (s_multi s) = false /\
     exists v, vget (s_vals s) (n, 0%nat) = Some (BVal v) /\ vty v = t) /\
  (forall n ts, sget e n = Some (Many ts) -> (1 < length ts)%nat -> memb n (s_multi s) = true /\
     forall i t, nth_error ts i = Some t -> exists v, vget (s_vals s) (n, i) = Some (BVal v) /\ vty v = t) /\
  (forall r vs, sget (s_unpack s) r = Some vs -> obind (find_node g r) n_tys = Some (map vty vs)).
Definition inv (e : list (string * nk)) (s : st) : Prop := inv0 e s /\
  (forall n i, sget e n = None -> vget (s_vals s) (n, i) = None) /\
  (forall n, sget e n = None -> memb n (s_multi s) = false).
Lemma inv0_same : forall e s s', inv0 e s -> same s s' -> inv0 e s'.
Proof. unfold inv0, same. intros e s s' H (A & B & C & D). rewrite A, B, C, D. exact H. Qed.
Lemma resolve_one : forall e s n t, inv0 e s -> sget e n = Some (One t) ->
  exists v, resolve n 0 s = Some (v, s) /\ vty v = t /\ memb n (s_multi s) = false.
Proof.
  intros e s n t (_ & H & _) Hn. destruct (H _ _ Hn) as (Hm & v & Hv & Ht). exists v.
  unfold resolve. rewrite Hv. auto.
Qed.
Lemma elem_ok : forall e s t o a, inv0 e s -> elem_scoped e t o a ->
  exists v s', import_elem attr t o a s = Some (v, s') /\ same s s'.
Proof.
  intros e s t o a I H. destruct H as [l Hl|n x Ha Hx Hf].
  - destruct (const_same l s) as (v & s' & E & S); [destruct Hl; discriminate|].
    exists v, s'. simpl. apply lit_elem_spec in Hl. rewrite Hl. auto.
  - destruct (resolve_one _ _ _ _ I Hx) as (v & E & Ht & Hm). exists v, s.
    unfold import_elem. rewrite Hm, Ha. cbn [obind]. rewrite E. cbn [obind].
    subst x. apply node_elem_spec in Hf. rewrite Hf. split; [reflexivity|apply same_refl].
Qed.
Lemma elems_ok : forall e t o l s, inv0 e s -> Forall (elem_scoped e t o) l ->
  exists vs s', import_elems attr t o l s = Some (vs, s') /\ same s s'.
Proof.
  induction l as [|a r IH]; intros s I H; simpl; [eexists _, _; split; [reflexivity|apply same_refl]|].
  inversion H as [|? ? H1 H2]; subst. destruct (elem_ok _ _ _ _ _ I H1) as (v & s1 & E1 & S1).
  destruct (IH s1 (inv0_same _ _ _ I S1) H2) as (vs & s2 & E2 & S2). rewrite E1. cbn [obind]. rewrite E2.
  eexists _, _. split; [reflexivity|]. eapply same_trans; eauto.
Qed.
Lemma list_ok : forall e q t o l s, inv0 e s -> list_of q t o -> Forall (elem_scoped e t o) l ->
  exists v s', import_list attr (Some q) l s = Some (v, s') /\ same s s'.
Proof.
  intros e q t o l s I Hq Hl. apply elem_type_spec in Hq. unfold import_list. rewrite Hq. cbn [obind].
  destruct (elems_ok _ _ _ _ _ I Hl) as (vs & s' & E & S). rewrite E. cbn [obind].
  eexists _, _. split; [reflexivity|]. eapply same_trans; [exact S|now repeat split].
Qed.
Lemma arg_ok : forall e q a s, inv0 e s -> arg_scoped e q a ->
  exists v s', import_arg attr q a s = Some (v, s') /\ same s s'.
Proof.
  intros e q a s I H.
  assert (C : forall v s0, same s s0 -> exists v' s', Some (convert_type v q s0) = Some (v', s') /\ same s s').
  { intros v s0 S. destruct (convert_type v q s0) as [v' s'] eqn:E. exists v', s'. split; auto.
    eapply same_trans; [exact S|]. eapply convert_same; eauto. }
  destruct H as [q n x Ha Hx|q l Hq Hl|i b|b|z|f|q t o l Hq Hl].
  - destruct (resolve_one _ _ _ _ I Hx) as (v & E & _ & Hm). unfold import_arg. rewrite Hm, Ha.
    cbn [obind]. rewrite E. cbn [obind]. apply C, same_refl.
  - destruct (literal_same l s Hl) as (v & s' & E & S). unfold import_arg.
    destruct q as [[]|]; try (rewrite E; cbn [obind]; apply C, S). now elim Hq.
  - destruct (literal_same (LTensor i b) s) as (v & s' & E & S); [discriminate|].
    unfold import_arg. rewrite E. cbn [obind]. apply C, S.
  - unfold import_arg, import_scalar_as_tensor, import_const. cbn [obind emit1]. apply C. now repeat split.
  - unfold import_arg, import_scalar_as_tensor, import_const. cbn [obind emit1]. apply C. now repeat split.
  - unfold import_arg, import_scalar_as_tensor, import_const. cbn [obind emit1]. apply C. now repeat split.
  - destruct (list_ok _ _ _ _ _ _ I Hq Hl) as (v & s' & E & S). unfold import_arg. rewrite E.
    cbn [obind]. apply C, S.
Qed.
Lemma default_ok : forall e q d s, inv0 e s -> dflt_scoped q d ->
  exists v s', import_default attr q (match d with Some d => d | None => DLit LNone end) s = Some (v, s') /\ same s s'.
Proof.
  intros e q d s I H. destruct H as [|l Hl|t o l Hq Hl]; simpl.
  - apply (const_same LNone). discriminate.
  - apply const_same. exact Hl.
  - eapply list_ok; eauto. apply Forall_forall. intros a Ha. apply in_map_iff in Ha.
    destruct Ha as (x & <- & Hx). constructor. rewrite Forall_forall in Hl. auto.
Qed.
Lemma params_ok : forall e args kw ps i s, inv0 e s ->
  (forall j q, nth_error ps j = Some q -> param_scoped e args kw (i + j) q) ->
  exists vs s', import_params attr i ps args kw s = Some (vs, s') /\ same s s' /\ length vs = length ps.
Proof.
  intros e args kw. induction ps as [|q r IH]; intros i s I H; cbn [import_params].
  - eexists _, _. split; [reflexivity|split; [apply same_refl|reflexivity]].
  - assert (H0 := H 0%nat q eq_refl). unfold param_scoped in H0. rewrite Nat.add_0_r in H0.
    assert (A : exists v s1, match nth_error args i with
        | Some a => import_arg attr (Some (p_type q)) a s
        | None => match sget kw (p_name q) with
            | Some a => import_arg attr (Some (p_type q)) a s
            | None => import_default attr (p_type q) (match p_default q with Some d => d | None => DLit LNone end) s
            end end = Some (v, s1) /\ same s s1).
    { destruct (nth_error args i); [eapply arg_ok; eauto|].
      destruct (sget kw (p_name q)); [eapply arg_ok; eauto|]. eapply default_ok; eauto. }
    destruct A as (v & s1 & E1 & S1). rewrite E1. cbn [obind].
    destruct (IH (S i) s1 (inv0_same _ _ _ I S1)) as (vs & s2 & E2 & S2 & L2).
    { intros j q' Hj. replace (S i + j)%nat with (i + S j)%nat by lia. apply H. exact Hj. }
    rewrite E2. cbn [obind]. eexists _, _. split; [reflexivity|]. split; [eapply same_trans; eauto|].
    simpl. now rewrite L2.
Qed.
Lemma scalar_variant_spec : forall n v, scalar_variant n = Some v <-> In (n, v) scalar_overloads.
Proof.
  intros n v. unfold scalar_variant. split.
  - repeat match goal with |- context [String.eqb n ?x] => destruct (String.eqb_spec n x) as [->|] end;
    intros H; try discriminate; injection H as <-; simpl; auto 8.
  - intros H. simpl in H. repeat destruct H as [[= <- <-]|H]; try reflexivity. contradiction.
Qed.
Lemma number_arg_spec : forall a, is_scalar_arg scal a = true <-> number_arg a.
Proof.
  intros a. unfold number_arg. split.
  - destruct a as [n|l|l|l]; simpl; try discriminate; eauto 8.
    destruct l; try discriminate; eauto 8.
  - intros [[b ->]|[[z ->]|[[f ->]|[n [-> H]]]]]; auto.
Qed.
Lemma uses_pick : forall sch args sch', uses sch args sch' -> pick_schema scal registry sch args = Some sch'.
Proof.
  intros sch args sch' H. unfold pick_schema. destruct H as [H|a Ha Hn|a v sch' Ha Hn Hv Hr].
  - destruct (scalar_variant (s_op sch)) as [v|] eqn:E; auto. apply scalar_variant_spec in E.
    elim H. apply in_map_iff. exists (s_op sch, v). auto.
  - destruct (scalar_variant (s_op sch)); auto. rewrite Ha.
    destruct (is_scalar_arg scal a) eqn:E; auto. apply number_arg_spec in E. contradiction.
  - apply scalar_variant_spec in Hv. rewrite Hv, Ha. apply number_arg_spec in Hn. now rewrite Hn.
Qed.
Lemma bind_ok : forall n i v s, s_hooks s = [] -> vget (s_vals s) (n, i) = None ->
  bind n i (BVal v) s = Some (set_vals ((n, i, BVal v) :: s_vals s) s).
Proof. intros n i v s Hh Hv. unfold bind. rewrite Hv. cbn [s_hooks set_vals]. now rewrite Hh. Qed.
Lemma results_ok : forall n vs i s, s_hooks s = [] -> (forall j, (i <= j)%nat -> vget (s_vals s) (n, j) = None) ->
  exists s', bind_results n i vs s = Some s' /\ s_hooks s' = [] /\ s_multi s' = s_multi s /\
    s_unpack s' = s_unpack s /\
    (forall m j, m <> n -> vget (s_vals s') (m, j) = vget (s_vals s) (m, j)) /\
    (forall j v, nth_error vs j = Some v -> vget (s_vals s') (n, i + j)%nat = Some (BVal v)) /\
    (forall j, (j < i)%nat -> vget (s_vals s') (n, j) = vget (s_vals s) (n, j)).
Proof.
  induction vs as [|v r IH]; intros i s Hh Hv; cbn [bind_results].
  - exists s. repeat split; auto. intros [|j] v; discriminate.
  - rewrite bind_ok; auto. cbn [obind].
    assert (K : forall m j, keyb (n, i) (m, j) = true <-> m = n /\ j = i).
    { intros m j. rewrite keyb_spec. split; [intros [= <- <-]; auto|intros [-> ->]; auto]. }
    destruct (IH (S i) (set_vals ((n, i, BVal v) :: s_vals s) s)) as (s' & E & B1 & B2 & B3 & B4 & B5 & B6); auto.
    { intros j Hj. cbn [s_vals set_vals]. rewrite vget_cons. destruct (keyb (n, i) (n, j)) eqn:Ek.
      - apply K in Ek. lia.
      - apply Hv. lia. }
    exists s'. split; auto. cbn [s_vals set_vals s_multi s_unpack] in *. repeat split; auto.
    + intros m j Hm. rewrite B4, vget_cons; auto. destruct (keyb (n, i) (m, j)) eqn:Ek; auto.
      apply K in Ek. tauto.
    + intros [|j] x Hx.
      * injection Hx as ->. rewrite Nat.add_0_r, B6, vget_cons by lia.
        destruct (keyb (n, i) (n, i)) eqn:Ek; auto.
        assert (keyb (n, i) (n, i) = true) by (apply K; auto). congruence.
      * replace (i + S j)%nat with (S i + j)%nat by lia. apply B5. exact Hx.
    + intros j Hj. rewrite B6, vget_cons by lia. destruct (keyb (n, i) (n, j)) eqn:Ek; auto.
      apply K in Ek. lia.
Qed.
Lemma mkvals_ty : forall ts k, map vty (mkvals k ts) = ts.
Proof. induction ts; simpl; intros; auto. now rewrite IHts. Qed.
(** Extending the environment with the results of node [n]. *)
Lemma memb_cons : forall m n l, memb m (n :: l) = (String.eqb n m || memb m l).
Proof. intros m n l. unfold memb. simpl. now rewrite String.eqb_sym. Qed.
Lemma inv_results : forall e s s' n r vs, inv e s -> sget e n = None ->
  s_hooks s' = [] ->
  (forall r vs, sget (s_unpack s') r = Some vs -> obind (find_node g r) n_tys = Some (map vty vs)) ->
  (forall m j, m <> n -> vget (s_vals s') (m, j) = vget (s_vals s) (m, j)) ->
  (forall m, m <> n -> memb m (s_multi s') = memb m (s_multi s)) ->
  (forall j v, nth_error vs j = Some v -> vget (s_vals s') (n, j) = Some (BVal v)) ->
  match r with
  | One t => map vty vs = [t] /\ memb n (s_multi s') = false
  | Many ts => map vty vs = ts /\ ((1 < length ts)%nat -> memb n (s_multi s') = true)
  end -> inv ((n, r) :: e) s'.
Proof.
  intros e s s' n r vs ((I1 & I3 & I4 & I6) & I2 & I5) Hn Hh Hu Hv Hm Hr Hk.
  split; [split; [auto|split; [|split; [|auto]]]|split].
  - intros m t H. simpl in H. destruct (String.eqb_spec n m).
    + subst m. injection H as ->. destruct Hk as [Hk1 Hk2]. split; auto.
      destruct vs as [|v [|]]; try discriminate. injection Hk1 as <-. exists v. split; auto.
    + rewrite Hm, Hv; auto.
  - intros m ts H Hl. simpl in H. destruct (String.eqb_spec n m).
    + subst m. injection H as ->. destruct Hk as [Hk1 Hk2]. split; auto.
      intros i t Hi. subst ts. rewrite nth_error_map in Hi. destruct (nth_error vs i) as [v|] eqn:Ev; [|discriminate].
      injection Hi as <-. exists v. auto.
    + rewrite Hm; auto. destruct (I4 _ _ H Hl) as [J1 J2]. split; auto. intros i t Hi.
      rewrite Hv; auto.
  - intros m i H. simpl in H. destruct (String.eqb_spec n m); [discriminate|]. rewrite Hv; auto.
  - intros m H. simpl in H. destruct (String.eqb_spec n m); [discriminate|]. rewrite Hm; auto.
Qed.
Lemma call_ok : forall e n sch sch' r s, inv e s ->
  s_op sch <> "torch.aten.as_strided"%string -> uses sch (n_args n) sch' ->
  params_scoped e (s_params sch') (n_args n) (n_kwargs n) -> sget e (n_name n) = None ->
  match s_returns sch' with
  | 0%nat => r = Many []
  | 1%nat => exists t, n_ty n = Some t /\ r = One t
  | _ => exists ts, n_tys n = Some ts /\ (1 < length ts)%nat /\ r = Many ts
  end ->
  exists s', import_call attr scal registry n (n_args n) (n_kwargs n) sch s = Some s' /\
    inv ((n_name n, r) :: e) s'.
Proof.
  intros e n sch sch' r s I Has Hu Hps Hn Hr. unfold import_call.
  destruct (String.eqb_spec (s_op sch) "torch.aten.as_strided"); [contradiction|].
  rewrite (uses_pick _ _ _ Hu). cbn [obind].
  assert (T : exists ts, result_types n sch' = Some ts /\
     match r with One t => ts = [t] | Many us => ts = us /\ (length us <> 1)%nat end).
  { unfold result_types. destruct (s_returns sch') as [|[|k]].
    - subst r. exists []. simpl. auto.
    - destruct Hr as (t & -> & ->). exists [t]. auto.
    - destruct Hr as (ts & -> & Hl & ->). exists ts. split; auto. split; auto. lia. }
  clear Hr. destruct T as (ts & -> & Ht). cbn [obind].
  set (s0 := if (1 <? length ts)%nat then set_multi (n_name n :: s_multi s) s else s).
  assert (Hm0 : forall m, m <> n_name n -> memb m (s_multi s0) = memb m (s_multi s)).
  { intros m Hm. unfold s0. destruct (1 <? length ts)%nat; auto. cbn [s_multi set_multi]. rewrite memb_cons.
    destruct (String.eqb_spec (n_name n) m); auto. congruence. }
  assert (V0 : s_vals s0 = s_vals s /\ s_hooks s0 = s_hooks s /\ s_unpack s0 = s_unpack s)
    by (unfold s0; destruct (1 <? length ts)%nat; auto).
  destruct V0 as (V1 & V2 & V3).
  assert (Hne : forall m x, sget e m = Some x -> m <> n_name n) by congruence.
  assert (I0 : inv0 e s0).
  { destruct I as ((I1 & I3 & I4 & I6) & _). unfold inv0. rewrite V1, V2, V3. split; auto.
    split; [|split; auto].
    - intros m t H. rewrite Hm0; eauto.
    - intros m us H. rewrite Hm0; eauto. }
  destruct (params_ok e (n_args n) (n_kwargs n) (s_params sch') 0 s0 I0) as (vs & s1 & E1 & (S1 & S2 & S3 & S4) & _).
  { intros j q Hj. apply Hps. exact Hj. }
  rewrite E1. cbn [obind]. unfold emit.
  pose proof I as ((I1 & I3 & I4 & I6) & I2 & I5).
  match goal with |- exists s', bind_results _ _ ?vs ?st = _ /\ _ =>
    destruct (results_ok (n_name n) vs 0 st) as (s' & E & B1 & B2 & B3 & B4 & B5 & _) end.
  { cbn [s_hooks]. congruence. }
  { intros j _. cbn [s_vals]. rewrite S1, V1. auto. }
  exists s'. split; auto. cbn [s_vals s_hooks s_multi s_unpack] in *.
  eapply inv_results with (vs := mkvals (s_next s1) ts); eauto.
  - rewrite B3, S4, V3. exact I6.
  - intros m j Hm. rewrite B4; auto. congruence.
  - intros m Hm. rewrite B2, S3. auto.
  - rewrite mkvals_ty, B2, S3. unfold s0. destruct r as [t|us].
    + subst ts. cbn. split; auto.
    + destruct Ht as [-> Hl]. split; auto. intros H1. apply Nat.ltb_lt in H1. rewrite H1.
      cbn [s_multi set_multi]. rewrite memb_cons, String.eqb_refl. reflexivity.
Qed.
Lemma unpackable_spec : forall t, is_list_ty t = true <-> unpackable t.
Proof.
  intros t. unfold unpackable. split.
  - destruct t as [| | | | | | | |x|x]; simpl; try discriminate; intros H; exists x;
      (split; [destruct x; try discriminate; simpl; auto 8|auto]).
  - intros (x & Hx & [->| ->]); simpl in Hx; repeat destruct Hx as [<-|Hx]; try contradiction; reflexivity.
Qed.
Lemma pyidx_map : forall A B (f : A -> B) l i y, pyidx (map f l) i = Some y ->
  exists x, pyidx l i = Some x /\ f x = y.
Proof.
  intros A B f l i y H. unfold pyidx, zlen in *. rewrite ?map_length in H. cbv zeta in *.
  repeat match type of H with (if ?c then _ else _) = _ => destruct c; try discriminate end;
  rewrite nth_error_map in H; destruct (nth_error l _) as [x|]; try discriminate; injection H as <-; eauto.
Qed.
Lemma bind_one_ok : forall e s n v t, inv e s -> sget e n = None -> vty v = t ->
  exists s', bind n 0 (BVal v) s = Some s' /\ inv ((n, One t) :: e) s'.
Proof.
  intros e s n v t I Hn Ht. pose proof I as ((I1 & I3 & I4 & I6) & I2 & I5).
  rewrite bind_ok; auto. eexists. split; [reflexivity|].
  eapply inv_results with (vs := [v]); eauto.
  - intros m j Hm. cbn [s_vals set_vals]. rewrite vget_cons. destruct (keyb (n, 0%nat) (m, j)) eqn:Ek; auto.
    apply keyb_spec in Ek. congruence.
  - intros [|j] x Hx; [|destruct j; discriminate]. injection Hx as <-. cbn [s_vals set_vals].
    rewrite vget_cons. destruct (keyb (n, 0%nat) (n, 0%nat)) eqn:Ek; auto.
    assert (keyb (n, 0%nat) (n, 0%nat) = true) by now apply keyb_spec. congruence.
  - simpl. rewrite Ht. split; auto.
Qed.
Lemma getitem_many_ok : forall e s n r i ts t, inv e s -> n_args n = [ANode r; ALit (LInt i)] ->
  sget e r = Some (Many ts) -> (0 <= i)%Z -> nth_error ts (Z.to_nat i) = Some t -> (1 < length ts)%nat ->
  sget e (n_name n) = None ->
  exists s', import_getitem g n s = Some s' /\ inv ((n_name n, One t) :: e) s'.
Proof.
  intros e s n r i ts t I Ha Hr Hi Ht Hl Hn. pose proof I as ((I1 & I3 & I4 & I6) & I2 & I5).
  destruct (I4 _ _ Hr Hl) as [Hm Hv]. destruct (Hv _ _ Ht) as (v & V1 & V2).
  unfold import_getitem. rewrite Ha, Hm. destruct (Z.ltb_spec i 0); [lia|]. unfold resolve. rewrite V1.
  cbn [obind]. eapply bind_one_ok; eauto.
Qed.
Lemma getitem_list_ok : forall e s n r i x ts t, inv e s -> n_args n = [ANode r; ALit (LInt i)] ->
  sget e r = Some (One x) -> unpackable x -> obind (find_node g r) n_tys = Some ts ->
  pyidx ts i = Some t -> sget e (n_name n) = None ->
  exists s', import_getitem g n s = Some s' /\ inv ((n_name n, One t) :: e) s'.
Proof.
  intros e s n r i x ts t I Ha Hr Hu Hts Ht Hn. pose proof I as (I0 & I2 & I5).
  destruct (resolve_one _ _ _ _ I0 Hr) as (v & E & Hv & Hm).
  unfold import_getitem. rewrite Ha, Hm.
  assert (F : exists s1 vs, match sget (s_unpack s) r with
       | Some _ => Some s
       | None => do (v, s1) <- resolve r 0 s;
           if is_list_ty (vty v) then
             do tys <- obind (find_node g r) n_tys;
             let '(rs, s2) := emit KListUnpack [v] tys s1 in
             Some (set_unpack ((r, rs) :: s_unpack s2) s2)
           else Some s1
       end = Some s1 /\ sget (s_unpack s1) r = Some vs /\ map vty vs = ts /\ inv e s1).
  { destruct (sget (s_unpack s) r) as [vs|] eqn:Eu.
    - exists s, vs. split; auto. split; auto. split; auto. destruct I0 as (_ & _ & _ & I6).
      apply I6 in Eu. congruence.
    - rewrite E. cbn [obind]. subst x. apply unpackable_spec in Hu. rewrite Hu, Hts. cbn [obind]. unfold emit.
      eexists _, _. split; [reflexivity|]. cbn [s_unpack set_unpack]. split; [simpl; now rewrite String.eqb_refl|].
      split; [apply mkvals_ty|]. destruct I0 as (I1 & I3 & I4 & I6). split; [|auto].
      split; auto. split; auto. split; auto. intros r' vs. cbn [s_unpack set_unpack]. simpl.
      destruct (String.eqb_spec r r'); [|apply I6]. intros [= <-]. subst r'. now rewrite mkvals_ty. }
  destruct F as (s1 & vs & -> & Hs & Hty & I1). cbn [obind]. rewrite Hs. cbn [obind].
  rewrite <- Hty in Ht. apply pyidx_map in Ht. destruct Ht as (w & -> & Hw). cbn [obind].
  eapply bind_one_ok; eauto.
Qed.
Lemma outs_ok : forall e l s, inv0 e s -> Forall (arg_scoped e None) l ->
  exists vs s', import_outs attr l s = Some (vs, s') /\ length vs = length l.
Proof.
  induction l as [|a r IH]; intros s I H; cbn [import_outs]; [eexists _, _; split; reflexivity|].
  inversion H as [|? ? H1 H2]; subst. destruct (arg_ok _ _ _ _ I H1) as (v & s1 & E1 & S1).
  destruct (IH s1 (inv0_same _ _ _ I S1) H2) as (vs & s2 & E2 & L). rewrite E1. cbn [obind]. rewrite E2.
  cbn [obind]. eexists _, _. split; [reflexivity|]. simpl. now rewrite L.
Qed.
Lemma body_ok : forall e ns args s, body_scoped e ns -> inv e s ->
  exists vs s', import_nodes attr scal registry g false ns args s = Some (Some vs, s').
Proof.
  intros e ns args s H. revert s. induction H as [e n outs a Ho Ha (l & Hl & Hf)|e n e' r Hn Hb IH]; intros s I.
  - cbn [import_nodes]. unfold import_node. rewrite Ho, Ha. cbn [nth_error obind].
    destruct (outs_ok e l s) as (vs & s' & E & _); auto; [apply I|].
    destruct Hl as [->| ->]; rewrite E; cbn [obind]; eauto.
  - assert (N : exists s1, import_node attr scal registry g false n args s = Some (args, None, s1) /\ inv e' s1).
    { unfold import_node. destruct Hn as [sch sch' r0 Ho Has Hu Hp Hn Hr|r0 i ts t Ho Ha Hr Hi Ht Hl Hn
        |r0 i x ts t Ho Ha Hr Hx Hts Ht Hn|Ho].
      - destruct (call_ok _ _ _ _ _ _ I Has Hu Hp Hn Hr) as (s1 & E & I1). rewrite Ho, E. cbn [obind]. eauto.
      - destruct (getitem_many_ok _ _ _ _ _ _ _ I Ha Hr Hi Ht Hl Hn) as (s1 & E & I1). rewrite Ho, E. cbn [obind]. eauto.
      - destruct (getitem_list_ok _ _ _ _ _ _ _ _ I Ha Hr Hx Hts Ht Hn) as (s1 & E & I1). rewrite Ho, E. cbn [obind]. eauto.
      - destruct Ho as [[l Ho]|Ho]; rewrite Ho; eauto. }
    destruct N as (s1 & E1 & I1). destruct (IH s1 I1) as (vs & s2 & E2). cbn [import_nodes].
    rewrite E1. cbn [obind]. rewrite E2. cbn [obind]. eauto.
Qed.
Lemma graph_ok : forall e ns tys k s, graph_scoped e ns -> inv e s -> mapM n_ty (placeholders ns) = Some tys ->
  exists vs s', import_nodes attr scal registry g false ns (mkvals k tys) s = Some (Some vs, s').
Proof.
  intros e ns tys k s H. revert tys k s. induction H as [e ns Hb Hp|e n r t Ho Ht Hn Hg IH]; intros tys k s I Hm.
  - eapply body_ok; eauto.
  - assert (Hp : placeholders (n :: r) = n :: placeholders r) by (unfold placeholders; simpl; now rewrite Ho).
    rewrite Hp in Hm. cbn [mapM] in Hm. rewrite Ht in Hm. cbn [obind] in Hm.
    destruct (mapM n_ty (placeholders r)) as [ts|] eqn:E; [|discriminate]. cbn [obind] in Hm. injection Hm as <-.
    destruct (bind_one_ok e s (n_name n) (V k t) t I Hn eq_refl) as (s1 & E1 & I1).
    destruct (IH ts (S k) s1 I1 eq_refl) as (vs & s2 & E2).
    cbn [import_nodes mkvals]. unfold import_node. rewrite Ho, E1. cbn [obind]. rewrite E2. cbn [obind]. eauto.
Qed.
Lemma scoped_types : forall e ns, graph_scoped e ns -> exists tys, mapM n_ty (placeholders ns) = Some tys.
Proof.
  induction 1 as [e ns Hb Hp|e n r t Ho Ht Hn Hg [tys IH]].
  - rewrite Hp. now exists [].
  - assert (Hp : placeholders (n :: r) = n :: placeholders r) by (unfold placeholders; simpl; now rewrite Ho).
    rewrite Hp. cbn [mapM]. rewrite Ht, IH. cbn [obind]. eauto.
Qed.
End Scoped.
