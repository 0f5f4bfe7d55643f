(** C121: what the import of a TorchScript function computes, and its form. *)
From Coq Require Import ZArith Bool Ascii String Lia List.
From Verif Require Import Prelude DtypeModel TypesModel JitTypesModel JitTypesSpec JitTypesProps NodeModel NodeSpec NodeProofs NodeShape NodeScope NodeTotal.
From Verif Require RegistryModel.
Import ListNotations.
Open Scope string_scope.
Open Scope list_scope.
Open Scope nat_scope.

(** The import computes what the graph computes: the same results and the same effects, or none, for any meaning of the operators that the dialect's follow. *)
Theorem C121_meaning : forall {val mem : Type} (w : world val mem) (fuel : nat) opts registered object_type name arguments returns graph b,
  faithful w registered ->
  import_function opts registered object_type name arguments returns graph = Some b ->
  forall args m, run_block w fuel (snd b) "func.return" args [] m = jit_block w fuel graph args [] m.
Proof.
  intros val mem w fuel opts registered object_type name arguments returns graph b F E args m. unfold import_function, obind in E. destruct (function_type opts arguments returns) as [[i r]|]; [|discriminate]. destruct (import_block _ _ _ graph _ _ _ _) as [[mb st]|] eqn:IB; [|discriminate]. injection E as <-.
  destruct (all_good w fuel opts registered object_type F graph _ _ _ _ _ _ ok_fresh IB) as (_ & _ & S1). apply S1. apply agree_nil.
Qed.
(** The types of the function, of its body and of the blocks inside agree. *)
Theorem C121_types : forall opts registered object_type name arguments returns graph n i r b,
  import_function opts registered object_type name arguments returns graph = Some (n, (i, r), b) ->
  n = name /\ function_type opts arguments returns = Some (i, r) /\ (exists args body, b = MBlock args body /\ map snd args = i) /\ yields b = r /\ typed_block b.
Proof.
  intros opts registered object_type name arguments returns graph n i r b E. unfold import_function, obind in E. destruct (function_type opts arguments returns) as [[i' r']|]; [|discriminate]. destruct (import_block _ _ _ graph _ _ _ _) as [[mb st]|] eqn:IB; [|discriminate]. injection E as <- <- <- <-.
  destruct (all_shapes _ _ _ _ _ _ _ _ _ _ IB) as (T & Y & _ & A). split; [reflexivity|]. split; [reflexivity|]. split; [|auto]. destruct mb as [args body]. exists args, body. auto.
Qed.
(** Each value is defined once. *)
Theorem C121_single : forall opts registered object_type name arguments returns graph b,
  import_function opts registered object_type name arguments returns graph = Some b -> map fst (defined_in (snd b)) = seq 0 (List.length (defined_in (snd b))) /\ NoDup (map fst (defined_in (snd b))).
Proof.
  intros opts registered object_type name arguments returns graph b E. unfold import_function, obind in E. destruct (function_type opts arguments returns) as [[i r]|]; [|discriminate]. destruct (import_block _ _ _ graph _ _ _ _) as [[mb st]|] eqn:IB; [|discriminate]. injection E as <-.
  destruct (all_shapes _ _ _ _ _ _ _ _ _ _ IB) as (_ & _ & [_ S1] & _). cbn [snd]. cbn [fresh_state next] in S1. assert (L : List.length (map fst (defined_in mb)) = next st) by (rewrite S1, seq_length; lia). rewrite map_length in L. rewrite S1. rewrite Nat.sub_0_r. split; [now rewrite <- L|apply seq_NoDup].
Qed.
(** The operands are visible where they are used, if those of the graph are. *)
Theorem C121_scoped : forall opts registered object_type name arguments returns graph b,
  scoped_graph [] graph -> import_function opts registered object_type name arguments returns graph = Some b -> scoped_block [] (snd b).
Proof.
  intros opts registered object_type name arguments returns graph b SG E. unfold import_function, obind in E. destruct (function_type opts arguments returns) as [[i r]|]; [|discriminate]. destruct (import_block _ _ _ graph _ _ _ _) as [[mb st]|] eqn:IB; [|discriminate]. injection E as <-.
  eapply (all_scopes opts registered object_type graph [] [] _ _ _ fresh_state); [apply ok_fresh|exact SG|intros ? []|exact IB].
Qed.
(** The functions that are imported: those where the types of values can be adjusted to the types that are expected. *)
Theorem C121_success : forall opts registered object_type name arguments returns graph,
  (exists b, import_function opts registered object_type name arguments returns graph = Some b) <->
  exists i r g, function_type opts arguments returns = Some (i, r) /\ importable_block opts registered object_type [] graph (Some i) r g.
Proof.
  intros opts registered object_type name arguments returns graph. unfold import_function, obind. pose proof (fun i r => all_can opts registered object_type graph (Some i) "func.return" r fresh_state ok_fresh) as A. cbn [ctx fresh_state value_map map] in A. change (ctx fresh_state) with (@nil (nat * ty)) in A. split.
  - intros [b E]. destruct (function_type opts arguments returns) as [[i r]|]; [|discriminate]. destruct (import_block _ _ _ graph _ _ _ _) as [[mb st]|] eqn:IB; [|discriminate]. exists i, r, (ctx st). split; [reflexivity|]. apply A. exists mb, st. auto.
  - intros (i & r & g & -> & C). apply A in C as (mb & st & -> & _). eauto.
Qed.
(** The operands of calls have the types that the callee expects; those of a tuple the types of its members, or subtypes. *)
Theorem C121_method_calls : forall opts registered object_type method arguments returns ins outs st ops st',
  import_node opts registered object_type (NCallMethod method arguments returns ins outs) st = Some (ops, st') ->
  exists i r casts vs results, function_type opts arguments returns = Some (i, r) /\ ops = casts ++ [MOp (MNamed "torch.prim.CallMethod" (NameAttr method)) vs results []] /\ map snd vs = i /\ output_types opts outs = Some (map snd results) /\ Forall typed_op casts.
Proof.
  intros opts registered object_type method arguments returns ins outs st ops st' E. cbn [import_node] in E. unfold obind in E. destruct (function_type opts arguments returns) as [[i r]|]; [|discriminate]. destruct (output_types opts outs) as [ts|]; [|discriminate]. destruct (lookup_values st ins) as [vs|]; [|discriminate]. destruct (adjust_values vs i false st) as [[[c ws] s1]|] eqn:A; [|discriminate]. destruct (create_and_map _ _ _ _ _) as [[o s2]|] eqn:C; [|discriminate]. injection E as <- <-.
  apply adjust_shape in A as (TC & _ & _ & _ & T & _). apply create_shape in C as (_ & _ & results & -> & <-); [|discriminate]. exists i, r, c, ws, results. auto.
Qed.
Theorem C121_function_calls : forall opts registered object_type function parameters ins outs st ops st',
  import_node opts registered object_type (NCallFunction function parameters ins outs) st = Some (ops, st') ->
  exists i casts vs results, types_from_values opts parameters = Some i /\ map snd vs = i /\ output_types opts outs = Some (map snd results) /\ Forall typed_op casts /\
    ((function = "__torch_mlir_internal_promote_dtypes" /\ ops = casts ++ [MOp (MNamed "torch.promote_dtypes" NoAttr) vs results []]) \/
     (function <> "__torch_mlir_internal_promote_dtypes" /\ exists j rest f, ins = j :: rest /\ In (j, f) (value_map st) /\ ops = casts ++ [MOp (MNamed "func.call_indirect" NoAttr) (f :: vs) results []])).
Proof.
  intros opts registered object_type function parameters ins outs st ops st' E. cbn [import_node] in E. unfold obind in E. destruct (types_from_values opts parameters) as [i|]; [|discriminate]. destruct (output_types opts outs) as [ts|]; [|discriminate]. destruct ins as [|callee ins]; [discriminate|]. destruct (lookup_values st ins) as [vs|]; [|discriminate]. destruct (adjust_values vs i false st) as [[[c ws] s1]|] eqn:A; [|discriminate]. apply adjust_shape in A as (TC & _ & V & _ & T & _). destruct (String.eqb function _) eqn:Q.
  - destruct (create_and_map _ _ _ _ _) as [[o s2]|] eqn:C; [|discriminate]. injection E as <- <-. apply create_shape in C as (_ & _ & results & -> & <-); [|discriminate]. apply String.eqb_eq in Q. exists i, c, ws, results. split; [reflexivity|]. split; [auto|]. split; [reflexivity|]. split; [exact TC|]. auto.
  - destruct (find_value s1 callee) as [f|] eqn:FV; [|discriminate]. destruct (create_and_map _ _ _ _ _) as [[o s2]|] eqn:C; [|discriminate]. injection E as <- <-. apply create_shape in C as (_ & _ & results & -> & <-); [|discriminate]. apply String.eqb_neq in Q. exists i, c, ws, results. split; [reflexivity|]. split; [auto|]. split; [reflexivity|]. split; [exact TC|]. right. split; [exact Q|]. exists callee, ins, f. split; [reflexivity|]. split; [|reflexivity]. apply find_value_some in FV. now rewrite <- V.
Qed.
Theorem C121_tuples : forall opts registered object_type name ins outs st ops st',
  import_node opts registered object_type (NPrim TupleConstruct name ins outs) st = Some (ops, st') ->
  exists j l cs casts vs result, outs = [(j, JTuple l)] /\ types_from_values opts l = Some cs /\ ops = casts ++ [MOp (MNamed "torch.prim.TupleConstruct" NoAttr) vs [result] []] /\
    Forall2 (fun v d => snd v = d \/ isValidSubtype (snd v) d = true) vs cs /\ output_types opts outs = Some [snd result] /\ Forall typed_op casts.
Proof.
  intros opts registered object_type name ins outs st ops st' E. cbn [import_node] in E. destruct outs as [|[j t] outs]; [discriminate|]. destruct t as [ | | | | | | | | | | |l| | | | |]; try discriminate. destruct outs; [|discriminate]. unfold obind in E. destruct (types_from_values opts l) as [cs|] eqn:TL; [|discriminate]. destruct (lookup_values st ins) as [vs|]; [|discriminate]. destruct (output_types opts _) as [ts|] eqn:OT; [|discriminate]. destruct (adjust_values vs cs true st) as [[[c ws] s1]|] eqn:A; [|discriminate]. destruct (create_and_map _ _ _ _ _) as [[o s2]|] eqn:C; [|discriminate]. injection E as <- <-.
  assert (LE : List.length ts = 1). { assert (X : exists ops st', create_and_map (MNamed (String.append "torch.prim." (unqual TupleConstruct)) NoAttr) ws ts [(j, JTuple l)] s1 = Some (ops, st') /\ ctx st' = ctx s2) by eauto. apply create_iff in X. inversion X as [L0 N0 D0 E0]. symmetry. exact L0. }
  apply adjust_shape in A as (TC & _ & _ & _ & _ & T). apply create_shape in C as (_ & _ & results & -> & RT); [|discriminate]. rewrite <- RT in LE. rewrite map_length in LE. destruct results as [|x [|? ?]]; try discriminate LE. exists j, l, cs, c, ws, x. split; [reflexivity|]. split; [exact TL|]. split; [reflexivity|]. split; [|split; [exact (f_equal Some (eq_sym RT))|exact TC]]. clear - T. induction T as [|v d vs ds H _ IH]; constructor; [tauto|exact IH].
Qed.

(** A tensor constant is a literal of the semantics asked for, and its type says the same *)
Theorem C121_tensor_literals : forall opts registered object_type kind dims contents out st ops st',
  import_node opts registered object_type (NConstant (CTensor kind dims contents) out) st = Some (ops, st') ->
  exists element v, ops = [MOp (MNamed (String.append (if assume_value_semantics opts then "torch.vtensor" else "torch.tensor") ".literal") (DenseAttr dims element contents)) [] [v] []] /\
    (exists c, elements_attr kind = Some (element, c)) /\ snd v = Tens (tensor (assume_value_semantics opts) (Some dims) (Some element)).
Proof.
  intros opts registered object_type kind dims contents out st ops st' E. cbn [import_node constant_op] in E. destruct (elements_attr kind) as [[element c]|] eqn:L; [|discriminate]. cbn [obind] in E.
  apply create_shape in E as (_ & _ & results & -> & RT); [|discriminate]. destruct results as [|v [|? ?]]; try discriminate RT. injection RT as RT. exists element, v. split; [destruct (assume_value_semantics opts); reflexivity|]. split; [exists c; reflexivity|exact RT].
Qed.

(** ** A function with a loop, a conditional, a dictionary and a call: twice the sum of the numbers below n *)
Definition sum_graph : block :=
  Block [(0, JOptional JInt)] [
    NConstant (CInt 0) (1, JInt); NConstant (CBool true) (2, JBool); NPrim ListConstruct "" [0] [(3, JInt)];
    NLoop [3; 2; 1] [(4, JInt)] (Block [(5, JInt); (6, JInt)] [NSchema (RegistryModel.txt "aten::add") [] [6; 5] [(7, JInt)]] [2; 7]);
    NIf [2] [(8, JInt)] (Block [] [NPrim Load "kept" [4] [(9, JInt)]] [9]) (Block [] [] [1]);
    NPrim DictConstruct "" [1; 4; 3; 8] [(10, JDict JInt JInt)];
    NCallMethod "forward" [JOptional JInt] [JInt] [8] [(11, JInt)]] [11].
Definition sum_world : world Z unit :=
  {| jit_operator := fun _ _ xs m => match xs with [x; y] => Some ([(x + y)%Z], m) | _ => None end; torch_operator := fun _ xs m => match xs with [x; y] => Some ([(x + y)%Z], m) | _ => None end;
     primitive := fun p _ xs m => match xs with [x] => Some ([x], m) | _ => Some ([fold_right Z.add 0%Z xs], m) end;
     literal_value := fun l => match l with LInt z => z | LBool true => 1%Z | _ => 0%Z end; method_call := fun _ xs m => Some (map (Z.mul 2) xs, m); value_call := fun _ _ _ => None; promote := fun _ _ => None;
     truth := fun x => Some (negb (x =? 0)%Z); count := Some; index := fun i => i |}.
Definition any_name : RegistryModel.text -> bool := fun _ => true.
Example C121_nonvacuous :
  faithful sum_world any_name /\ scoped_graph [] sum_graph /\
  (exists b, import_function default_options any_name (fun _ => None) "sum" [JInt] [JOptional JInt] sum_graph = Some b /\
     run_block sum_world 9 (snd b) "func.return" [5%Z] [] tt = Some ([20%Z], tt) /\ jit_block sum_world 9 sum_graph [5%Z] [] tt = Some ([20%Z], tt) /\ List.length (defined_in (snd b)) = 15 /\ yields (snd b) = [Optional (Atom IntA)]) /\
  jit_block sum_world 4 sum_graph [5%Z] [] tt = None.
Proof.
  split; [intros name overload c xs m _; reflexivity|]. split.
  - constructor. cbn [map fst app]. repeat (apply scoped_next; [constructor; try (intros x X; cbn in X |- *; tauto)|cbn [outputs_of map fst app]]).
    all: try (constructor; intros x X; cbn in X |- *; tauto).
    all: constructor; cbn [map fst app]; repeat (apply scoped_next; [constructor; try (intros x X; cbn in X |- *; tauto)|cbn [outputs_of map fst app]]); constructor; intros x X; cbn in X |- *; tauto.
  - split; [|reflexivity]. eexists. split; [vm_compute; reflexivity|]. vm_compute. auto.
Qed.
(** Values of inner blocks stay in the map: a graph that uses one outside of its block is imported, to operations whose operands are not visible. *)
Definition leaky_graph : block :=
  Block [(0, JBool)] [NIf [0] [] (Block [] [NConstant (CInt 1) (1, JInt)] []) (Block [] [] [])] [1].
Theorem C121_scoped_refuted : exists b, import_function default_options any_name (fun _ => None) "leak" [JBool] [JInt] leaky_graph = Some b /\ ~ scoped_graph [] leaky_graph /\ ~ scoped_block [] (snd b).
Proof.
  eexists. split; [vm_compute; reflexivity|]. split.
  - intros H. inversion H as [? ? ? H1]; subst. inversion H1 as [|? ? ? _ H2]; subst. inversion H2 as [? H3|]; subst. specialize (H3 1 (or_introl eq_refl)). cbn in H3. decompose [or] H3; try discriminate; contradiction.
  - intros H. cbn [snd] in H. inversion H as [? ? H1]; subst. inversion H1 as [|? ? ? ? ? _ H2]; subst. inversion H2 as [|? ? ? ? ? H3 _]; subst. inversion H3 as [? ? ? ? H4 _]; subst. specialize (H4 _ (or_introl eq_refl)). cbn in H4. decompose [or] H4; try discriminate; contradiction.
Qed.
(** The condition and the count of a loop, the condition of a conditional and the operands of operators have whatever type they have: nothing adjusts them. *)
Theorem C121_conditions_refuted : exists graph b, import_function default_options any_name (fun _ => None) "f" [JInt] [JInt] graph = Some b /\
  exists args cond results x y rest, snd b = MBlock args (MOp (MNamed "torch.prim.If" NoAttr) [cond] results [x; y] :: rest) /\ snd cond = Atom IntA.
Proof. exists (Block [(0, JInt)] [NIf [0] [] (Block [] [] []) (Block [] [] [])] [0]). eexists. split; [vm_compute; reflexivity|]. cbn [snd]. do 6 eexists. split; reflexivity. Qed.

Print Assumptions C121_meaning.
Print Assumptions C121_tensor_literals.
Print Assumptions C121_types.
Print Assumptions C121_single.
Print Assumptions C121_scoped.
Print Assumptions C121_success.
Print Assumptions C121_method_calls.
Print Assumptions C121_function_calls.
Print Assumptions C121_tuples.
Print Assumptions C121_scoped_refuted.
Print Assumptions C121_conditions_refuted.
