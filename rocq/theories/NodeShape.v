(** Lemmas for C121: types, numbering, scopes and success. *)
From Coq Require Import ZArith Bool String Lia List.
From Verif Require Import Prelude DtypeModel TypesModel JitTypesModel JitTypesSpec JitTypesProps NodeModel NodeSpec NodeProofs.
From Verif Require RegistryModel.
Import ListNotations.
Open Scope string_scope.
Open Scope list_scope.
Open Scope nat_scope.

Definition spans (st : state) (l : list (nat * ty)) (st' : state) : Prop := next st <= next st' /\ map fst l = seq (next st) (next st' - next st).
Lemma spans_nil st st' : next st' = next st -> spans st [] st'.
Proof. intros E. split; [lia|]. rewrite E, Nat.sub_diag. reflexivity. Qed.
Lemma spans_app a b c l m : spans a l b -> spans b m c -> spans a (l ++ m) c.
Proof. intros [A B] [C D]. split; [lia|]. rewrite map_app, B, D. replace (next c - next a) with ((next b - next a) + (next c - next b)) by lia. rewrite seq_app. f_equal. f_equal. lia. Qed.
Lemma spans_fresh ts st vs st' : fresh ts st = (vs, st') -> spans st vs st'.
Proof. intros F. apply fresh_spec in F as (A & B & C & D). split; [lia|]. rewrite D, B. f_equal. lia. Qed.
Lemma spans_next a b c l : spans a l b -> next c = next b -> spans a l c.
Proof. intros [A B] E. unfold spans. rewrite E. auto. Qed.
Lemma next_results outs : forall vs st st', map_results outs vs st = Some st' -> next st' = next st.
Proof. induction outs as [|[j t] outs IH]; intros [|v vs] st st' E; cbn in E; try discriminate; [now injection E as <-|]. unfold obind in E. destruct (map_value j v st) as [s|] eqn:M; [|discriminate]. apply IH in E. rewrite E. unfold map_value in M. destruct (find_value st j); [discriminate|]. now injection M as <-. Qed.
Lemma adjust_shape vs : forall ds b st ops ws st', adjust_values vs ds b st = Some (ops, ws, st') -> Forall typed_op ops /\ spans st (flat_map defined ops) st' /\ value_map st' = value_map st /\ List.length ws = List.length ds /\
  (b = false -> map snd ws = ds) /\ Forall2 (fun v d => snd v = d \/ b = true /\ isValidSubtype (snd v) d = true) ws ds.
Proof.
  induction vs as [|v vs IH]; intros [|d ds] b st ops ws st' E; cbn [adjust_values] in E; try discriminate.
  - injection E as <- <- <-. split; [constructor|]. split; [now apply spans_nil|]. repeat split; constructor.
  - unfold obind in E at 1. destruct (adjust (snd v) d b) as [a|] eqn:A; [|discriminate].
    destruct a; unfold obind in E; destruct (adjust_values vs ds b _) as [[[o us] s1]|] eqn:E1; try discriminate; injection E as <- <- <-; apply IH in E1 as (T & S1 & V & L & M & F).
    + split; [exact T|]. split; [exact S1|]. split; [exact V|]. split; [cbn; lia|]. unfold adjust in A. split.
      * intros Q. cbn. rewrite (M Q). f_equal. subst b. destruct (ty_eqb (snd v) d) eqn:Y; [now apply ty_eqb_iff in Y|]. destruct (both_tensors _ _); [discriminate|]. destruct (isValidSubtype (snd v) d); [discriminate|]. destruct (isValidSubtype d (snd v)); discriminate.
      * constructor; [|exact F]. destruct (ty_eqb (snd v) d) eqn:Y; [left; now apply ty_eqb_iff in Y|]. destruct (both_tensors _ _); [discriminate|]. destruct (isValidSubtype (snd v) d) eqn:Z; [|destruct (isValidSubtype d (snd v)); discriminate]. right. destruct b; [auto|discriminate].
    + split; [constructor; [apply typed_cast; [destruct b; auto|discriminate]|exact T]|]. cbn [flat_map defined app next value_map] in *. split; [|split; [exact V|split; [cbn; lia|split; [intros Q; cbn; now rewrite (M Q)|constructor; [now left|exact F]]]]].
      apply (spans_app st {| next := S (next st); value_map := value_map st |} s1 [(next st, d)]); [|exact S1]. split; [cbn; lia|]. cbn [next]. replace (S (next st) - next st) with 1 by lia. reflexivity.
    + split; [constructor; [apply typed_cast; [destruct b; auto|discriminate]|exact T]|]. cbn [flat_map defined app next value_map] in *. split; [|split; [exact V|split; [cbn; lia|split; [intros Q; cbn; now rewrite (M Q)|constructor; [now left|exact F]]]]].
      apply (spans_app st {| next := S (next st); value_map := value_map st |} s1 [(next st, d)]); [|exact S1]. split; [cbn; lia|]. cbn [next]. replace (S (next st) - next st) with 1 by lia. reflexivity.
    + split; [constructor; [apply typed_cast; [destruct b; auto|discriminate]|exact T]|]. cbn [flat_map defined app next value_map] in *. split; [|split; [exact V|split; [cbn; lia|split; [intros Q; cbn; now rewrite (M Q)|constructor; [now left|exact F]]]]].
      apply (spans_app st {| next := S (next st); value_map := value_map st |} s1 [(next st, d)]); [|exact S1]. split; [cbn; lia|]. cbn [next]. replace (S (next st) - next st) with 1 by lia. reflexivity.
Qed.
Lemma create_shape o vs types outs st ops st' : (forall a, o <> MCast a) -> create_and_map o vs types outs st = Some (ops, st') -> Forall typed_op ops /\ spans st (flat_map defined ops) st' /\ exists results, ops = [MOp o vs results []] /\ map snd results = types.
Proof.
  intros N E. unfold create_and_map, obind in E. destruct (fresh types st) as [rs s1] eqn:F. destruct (map_results outs rs s1) as [s2|] eqn:M; [|discriminate]. injection E as <- <-. split; [constructor; [now apply typed_leaf|constructor]|]. split; [|exists rs; split; [reflexivity|]; apply fresh_spec in F; tauto].
  cbn. rewrite !app_nil_r. eapply spans_next; [apply (spans_fresh _ _ _ _ F)|]. now apply next_results in M.
Qed.
Lemma cast_create vs ds b st casts ws s1 o ws' types outs ops st' : (forall a, o <> MCast a) -> adjust_values vs ds b st = Some (casts, ws, s1) -> create_and_map o ws' types outs s1 = Some (ops, st') -> Forall typed_op (casts ++ ops) /\ spans st (flat_map defined (casts ++ ops)) st'.
Proof.
  intros N A C. apply adjust_shape in A as (T & S1 & _). apply create_shape in C as (T' & S2 & _); [|exact N]. split; [now apply Forall_app|]. rewrite flat_map_app. eapply spans_app; eassumption.
Qed.
Lemma params_shape params : forall args types st ops st', map_params params args types st = Some (ops, st') -> Forall typed_op ops /\ spans st (flat_map defined ops) st'.
Proof.
  induction params as [|[j t] params IH]; intros [|a args] [|d types] st ops st' E; cbn [map_params] in E; try discriminate.
  - injection E as <- <-. split; [constructor|now apply spans_nil].
  - unfold obind in E. destruct (adjust_values [a] [d] false st) as [[[o ws] s1]|] eqn:A; [|discriminate]. destruct ws as [|w [|? ?]]; try discriminate. destruct (map_value j w s1) as [s2|] eqn:M; [|discriminate]. destruct (map_params params args types s2) as [[o2 s3]|] eqn:P; [|discriminate]. injection E as <- <-. apply adjust_shape in A as (T & S1 & _). apply IH in P as (T2 & S2). split; [now apply Forall_app|]. rewrite flat_map_app. eapply spans_app; [|exact S2]. eapply spans_next; [exact S1|]. unfold map_value in M. destruct (find_value s1 j); [discriminate|]. now injection M as <-.
Qed.

Section Shape.
Context (opts : options) (registered : RegistryModel.text -> bool) (object_type : nat -> option ty).
Notation imp_node := (import_node opts registered object_type).
Notation imp_block := (import_block opts registered object_type).
Notation imp_nodes := (import_nodes opts registered object_type).
Definition params_of (b : block) : list output := match b with Block p _ _ => p end.
Definition args_of (b : mblock) : list value := match b with MBlock a _ => a end.
Definition node_shape (n : node) : Prop := forall st ops st', imp_node n st = Some (ops, st') -> Forall typed_op ops /\ spans st (flat_map defined ops) st'.
Definition block_shape (b : block) : Prop := forall at_ t types st mb st', imp_block b at_ t types st = Some (mb, st') ->
  typed_block mb /\ yields mb = types /\ spans st (defined_in mb) st' /\ match at_ with Some l => map snd (args_of mb) = l | None => output_types opts (params_of b) = Some (map snd (args_of mb)) end.
Lemma nodes_shape l : Forall node_shape l -> forall st ops st', imp_nodes l st = Some (ops, st') -> Forall typed_op ops /\ spans st (flat_map defined ops) st'.
Proof.
  induction 1 as [|n l N _ IH]; intros st ops st' E; cbn [import_nodes] in E.
  - injection E as <- <-. split; [constructor|now apply spans_nil].
  - unfold obind in E. destruct (imp_node n st) as [[o s1]|] eqn:E1; [|discriminate]. fold (imp_nodes) in E. destruct (imp_nodes l s1) as [[o2 s2]|] eqn:E2; [|discriminate]. injection E as <- <-. apply N in E1 as (T1 & S1). apply IH in E2 as (T2 & S2). split; [now apply Forall_app|]. rewrite flat_map_app. eapply spans_app; eassumption.
Qed.
Lemma block_shape_case params nodes returns : Forall node_shape nodes -> block_shape (Block params nodes returns).
Proof.
  intros H at_ t types st mb st' E. rewrite import_block_eq in E. unfold obind in E. destruct (create_block opts params at_ st) as [[[args casts] s1]|] eqn:C; [|discriminate]. destruct (imp_nodes nodes s1) as [[ops s2]|] eqn:N; [|discriminate]. destruct (lookup_values s2 returns) as [ys|] eqn:L; [|discriminate]. unfold create_terminator, obind in E. destruct (adjust_values ys types false s2) as [[[tc ws] s3]|] eqn:T; [|discriminate]. injection E as <- <-.
  unfold create_block, obind in C. destruct (output_types opts params) as [ps|] eqn:OT; [|discriminate]. set (ats := match at_ with None => ps | Some l => l end) in *. destruct (_ =? _); [|discriminate]. destruct (fresh ats st) as [vs s0] eqn:F. destruct (map_params params vs ps s0) as [[o s1']|] eqn:M; [|discriminate]. injection C as <- <- <-.
  apply params_shape in M as (TM & SM). pose proof (fresh_spec _ _ _ _ F) as (_ & _ & FT & _). apply spans_fresh in F. apply nodes_shape in N as (TN & SN); [|exact H]. apply adjust_shape in T as (TT & ST & _ & _ & TY & _). split.
  - constructor. repeat (apply Forall_app; split; auto). constructor; [|constructor]. apply typed_leaf. discriminate.
  - split; [cbn [yields]; rewrite !app_assoc, rev_app_distr; cbn; now apply TY|]. split.
    + cbn [defined_in]. rewrite !flat_map_app. eapply spans_app; [exact F|]. eapply spans_app; [exact SM|]. eapply spans_app; [exact SN|]. cbn. rewrite app_nil_r. exact ST.
    + cbn [args_of params_of]. rewrite FT. subst ats. destruct at_; auto.
Qed.
Lemma all_shapes b0 : block_shape b0.
Proof.
  apply (block_tree node_shape block_shape).
  - intros name overload ins outs st ops st' E. cbn [import_node] in E. unfold obind in E. destruct (output_types opts outs); [|discriminate]. destruct (lookup_values st ins); [|discriminate]. destruct (create_operation _ _ _); [|discriminate]. apply create_shape in E; [|discriminate]. tauto.
  - intros p name ins outs st ops st' E. cbn [import_node] in E. destruct p; unfold obind in E.
    6: { destruct outs as [|[j t] outs]; [discriminate|]. destruct t as [ | | | | | | | | | | |contained| | | | |]; try discriminate. destruct outs; [|discriminate]. destruct (types_from_values opts contained); [|discriminate]. destruct (lookup_values st ins); [|discriminate]. destruct (output_types _ _); [|discriminate]. destruct (adjust_values _ _ _ _) as [[[c ws] s1]|] eqn:A; [|discriminate]. destruct (create_and_map _ _ _ _ _) as [[o s2]|] eqn:C; [|discriminate]. injection E as <- <-. eapply cast_create; [|exact A|exact C]. discriminate. }
    6: { destruct (lookup_values st ins); [|discriminate]. destruct (output_types opts outs); [|discriminate]. destruct (rearrange _); [|discriminate]. apply create_shape in E; [|discriminate]. tauto. }
    1-5: destruct (lookup_values st ins); [|discriminate]; destruct (output_types opts outs); [|discriminate]; apply create_shape in E; [|discriminate]; tauto.
    all: destruct (output_types opts outs); [|discriminate]; destruct (lookup_values st ins); [|discriminate]; apply create_shape in E; [|discriminate]; tauto.
  - intros c out st ops st' E. cbn [import_node] in E. unfold obind in E. destruct (constant_op opts object_type c) as [[o t]|] eqn:C; [|discriminate]. apply create_shape in E; [tauto|]. intros a ->. destruct c; cbn in C; try discriminate; unfold obind in C; [destruct (elements_attr s) as [[? ?]|]; discriminate|destruct (function_type _ _ _) as [[? ?]|]; discriminate|destruct (object_type x); discriminate].
  - intros ins outs b B st ops st' E. destruct ins as [|mx [|cond iters]]; [cbn in E; destruct (output_types opts outs); discriminate|cbn in E; destruct (output_types opts outs); discriminate|]. rewrite import_loop_eq in E. unfold obind in E. destruct (output_types opts outs) as [types|]; [|discriminate]. destruct (lookup_values st [mx; cond]) as [vs|] eqn:L; [|discriminate]. destruct (lookup_values st iters) as [us|] eqn:LI; [|discriminate]. destruct (adjust_values us types false st) as [[[casts ws] s1]|] eqn:AV; [|discriminate]. destruct (fresh types s1) as [results s2] eqn:FR. destruct (map_results outs results s2) as [s3|] eqn:M; [|discriminate]. destruct (imp_block b _ _ _ s3) as [[mb s4]|] eqn:IB; [|discriminate]. injection E as <- <-.
    apply adjust_shape in AV as (TA & SA & _ & _ & TY & _). pose proof (fresh_spec _ _ _ _ FR) as (_ & _ & FT & _). apply spans_fresh in FR. apply next_results in M. apply B in IB as (TB & YB & SB & _). split.
    + apply Forall_app. split; [exact TA|]. constructor; [|constructor]. apply lookup_in in L. inversion L as [|? v ? vs' _ L1]; subst. inversion L1 as [|? v' ? vs'' _ L2]; subst. inversion L2; subst. cbn [app]. constructor; [rewrite TY; auto|exact YB|exact TB].
    + rewrite flat_map_app. eapply spans_app; [exact SA|]. cbn [flat_map defined]. fold (defined_in mb). rewrite !app_nil_r. eapply spans_app; [|exact SB]. eapply spans_next; [exact FR|exact M].
  - intros ins outs b b' B B' st ops st' E. destruct ins as [|cond [|? ?]]; [cbn in E; destruct (output_types opts outs); discriminate| |cbn in E; destruct (output_types opts outs); discriminate]. rewrite import_if_eq in E. unfold obind in E. destruct (output_types opts outs) as [types|]; [|discriminate]. destruct (find_value st cond) as [v|] eqn:L; [|discriminate]. destruct (fresh types st) as [results s2] eqn:FR. destruct (map_results outs results s2) as [s3|] eqn:M; [|discriminate]. destruct (imp_block b _ _ _ s3) as [[mb s4]|] eqn:IB; [|discriminate]. destruct (imp_block b' _ _ _ s4) as [[mb' s5]|] eqn:IB'; [|discriminate]. injection E as <- <-.
    pose proof (fresh_spec _ _ _ _ FR) as (_ & _ & FT & _). apply spans_fresh in FR. apply next_results in M. apply B in IB as (TB & YB & SB & _). apply B' in IB' as (TB' & YB' & SB' & _). split.
    + constructor; [|constructor]. constructor; congruence.
    + cbn [flat_map defined]. fold (defined_in mb) (defined_in mb'). rewrite !app_nil_r. eapply spans_app; [|eapply spans_app; eassumption]. eapply spans_next; [exact FR|exact M].
  - intros a b c ins outs st ops st' E. cbn [import_node] in E. unfold obind in E. destruct (function_type opts b c) as [[ex ?]|]; [|discriminate]. destruct (output_types opts outs) as [types|]; [|discriminate]. destruct (lookup_values st ins) as [vs|] eqn:L; [|discriminate]. destruct (adjust_values vs ex false st) as [[[casts ws] s1]|] eqn:AV; [|discriminate]. destruct (create_and_map _ _ _ _ _) as [[o s2]|] eqn:C; [|discriminate]. injection E as <- <-. eapply cast_create; [|exact AV|exact C]. discriminate.
  - intros f ps ins outs st ops st' E. cbn [import_node] in E. unfold obind in E. destruct (types_from_values opts ps) as [ex|]; [|discriminate]. destruct (output_types opts outs) as [types|]; [|discriminate]. destruct ins as [|callee ins]; [discriminate|]. destruct (lookup_values st ins) as [vs|] eqn:L; [|discriminate]. destruct (adjust_values vs ex false st) as [[[casts ws] s1]|] eqn:AV; [|discriminate]. destruct (String.eqb f _).
    + destruct (create_and_map _ _ _ _ _) as [[o s2]|] eqn:C; [|discriminate]. injection E as <- <-. eapply cast_create; [|exact AV|exact C]. discriminate.
    + destruct (find_value s1 callee) as [v|] eqn:FV; [|discriminate]. destruct (create_and_map _ _ _ _ _) as [[o s2]|] eqn:C; [|discriminate]. injection E as <- <-. eapply cast_create; [|exact AV|exact C]. discriminate.
  - intros st ops st' E. discriminate E.
  - apply block_shape_case.
Qed.
End Shape.
