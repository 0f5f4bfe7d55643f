(** The generated lazy tensor backend (build_tools/autogen_ltc_backend.py). *)
From Coq Require Import Bool Ascii String List.
From Verif Require Import Prelude LtcModel.
Import ListNotations.
Open Scope string_scope.
Open Scope list_scope.

(** * What a Lower function does *)
Section Lowering.
Variable V : Type.
(** What is passed to the operator: a value, a null pointer for an absent optional, a constant member of the node. *)
Inductive passed := Val (v : V) | Null | Member (x : string).
(** The C++ statements, in order: [operand(i++)] reads the next operand of the node and fails after the last one; [has x]: the member has_x. *)
Fixpoint exec (has : string -> bool) (items : list item) (ops : list V) : option (list passed * list V) :=
  match items with
  | [] => Some ([], ops)
  | Constant x :: r => do (l, ops) <- exec has r ops; Some (Member x :: l, ops)
  | NextOperand :: r =>
      match ops with [] => None | v :: ops => do (l, ops) <- exec has r ops; Some (Val v :: l, ops) end
  | NextOperandIf x :: r =>
      if has x then match ops with [] => None | v :: ops => do (l, ops) <- exec has r ops; Some (Val v :: l, ops) end
      else do (l, ops) <- exec has r ops; Some (Null :: l, ops)
  end.
(** The call that a node was made for: a value for each lazy argument, none for an absent optional. *)
Variable env : string -> option V.
Definition has (x : string) : bool := match env x with Some _ => true | None => false end.
Definition values (l : list larg) : list V :=
  flat_map (fun a => if is_lazy a then match env (l_name a) with Some v => [v] | None => [] end else []) l.
(** The operands of the node: Node drops the absent ones. *)
Definition operands (s : schema) : list V := values (positional_args s) ++ values (keyword_args s).
(** The arguments of the call. *)
Definition meant (a : larg) : passed :=
  if is_lazy a then match env (l_name a) with Some v => Val v | None => Null end else Member (l_name a).
(** The call is one of this schema. *)
Definition callable (s : schema) : Prop :=
  forall a, In a (positional_args s ++ keyword_args s) -> is_lazy a = true -> is_optional a = false -> env (l_name a) <> None.

Lemma exec_app : forall h a b ops, exec h (a ++ b) ops =
  (do (l, ops) <- exec h a ops; do (r, ops) <- exec h b ops; Some (l ++ r, ops)).
Proof.
  induction a as [|i a IH]; intros b ops; cbn.
  - destruct (exec h b ops) as [[]|]; auto.
  - destruct i; [destruct ops; auto|destruct (h x); [destruct ops; auto|]|]; rewrite IH;
      destruct (exec h a _) as [[l o]|]; cbn; auto; destruct (exec h b o) as [[]|]; auto.
Qed.
Lemma exec_positional : forall l rest, (forall a, In a l -> is_lazy a = true -> is_optional a = false -> env (l_name a) <> None) ->
  exec has (map (fun a => if is_lazy a then if is_optional a then NextOperandIf (l_name a) else NextOperand else Constant (l_name a)) l)
    (values l ++ rest) = Some (map meant l, rest).
Proof.
  induction l as [|a l IH]; intros rest C; auto. assert (IH' := IH rest (fun b I => C b (or_intror I))). unfold values in *. cbn.
  unfold meant at 1. destruct (is_lazy a) eqn:L; cbn.
  - destruct (is_optional a) eqn:O; cbn.
    + unfold has at 1. destruct (env (l_name a)); cbn; rewrite IH'; auto.
    + destruct (env (l_name a)) eqn:E; [|exfalso; apply (C a); cbn; auto]. cbn. rewrite IH'. auto.
  - rewrite IH'. auto.
Qed.
Lemma values_filter : forall l, values l = values (filter is_lazy l).
Proof. unfold values. induction l as [|a l IH]; cbn; auto. destruct (is_lazy a) eqn:L; cbn; rewrite ?L, IH; auto. Qed.
Lemma exec_keywords : forall l rest, (forall a, In a l -> is_lazy a = true /\ env (l_name a) <> None) ->
  exec has (map snd (map (fun a => (l_name a, NextOperand)) l)) (values l ++ rest) = Some (map meant l, rest).
Proof.
  induction l as [|a l IH]; intros rest C; auto. assert (IH' := IH rest (fun b I => C b (or_intror I))). unfold values in *. cbn.
  destruct (C a (or_introl eq_refl)) as [L E]. unfold meant at 1. rewrite L. destruct (env (l_name a)); [|congruence].
  cbn. rewrite IH'. auto.
Qed.
Lemma exec_constants : forall l ops, exec has (map snd (map (fun a => (l_name a, Constant (l_name a))) l)) ops =
  Some (map (fun a => Member (l_name a)) l, ops).
Proof. induction l as [|a l IH]; intros ops; cbn; auto. rewrite IH. auto. Qed.

(** The operands of a node go to the arguments they were made from, if no optional keyword argument is absent. *)
Theorem C94_operands_reach_their_arguments : forall s, LowerDeclOnly s = false -> Lower s = true -> callable s ->
  (forall a, In a (keyword_args s) -> is_lazy a = true -> env (l_name a) <> None) ->
  exists n k b args kwargs, lowering_function s = Body n k b args kwargs (n_returns s) /\
  exec has (args ++ map snd kwargs) (operands s) =
    Some (map meant (positional_args s) ++ map meant (filter is_lazy (keyword_args s) ++ filter (fun a => negb (is_lazy a)) (keyword_args s)), []) /\
  map fst kwargs = map l_name (filter is_lazy (keyword_args s) ++ filter (fun a => negb (is_lazy a)) (keyword_args s)) /\
  n = length (positional_args s) /\ k = length (keyword_args s) /\ length args = n /\ length kwargs = k.
Proof.
  intros s D L C K. unfold lowering_function. rewrite D, L. cbn [negb]. do 5 eexists. split; [reflexivity|].
  assert (Len : length (emplace_kwarguments s) = length (keyword_args s)).
  { unfold emplace_kwarguments, keyword_values, keyword_scalars. rewrite app_length, !map_length.
    generalize (keyword_args s). induction l as [|a l IH]; cbn; auto. destruct (is_lazy a); cbn; rewrite <- IH; auto. }
  assert (LenA : length (emplace_arguments s) = length (positional_args s)) by apply map_length.
  split; [|split; [|repeat split; auto]].
  - rewrite exec_app. unfold emplace_arguments, operands. rewrite exec_positional; [|intros a I; apply C; apply in_app_iff; auto].
    cbn [obind]. unfold emplace_kwarguments. rewrite map_app, exec_app, (values_filter (keyword_args s)).
    rewrite <- (app_nil_r (values (filter is_lazy (keyword_args s)))). unfold keyword_values. rewrite exec_keywords.
    2:{ intros a I. apply filter_In in I as [I La]. split; auto. }
    cbn [obind]. rewrite exec_constants. cbn [obind]. f_equal. f_equal. rewrite map_app. f_equal. f_equal.
    unfold keyword_scalars. apply map_ext_in. intros a I. apply filter_In in I as [_ I]. unfold meant.
    destruct (is_lazy a); [discriminate|auto].
  - unfold emplace_kwarguments. rewrite !map_app, !map_map. reflexivity.
Qed.
(** The counter is declared exactly when it is used. *)
Theorem C94_counter_declared_when_used : forall s n k b args kwargs r, lowering_function s = Body n k b args kwargs r ->
  (b = true <-> exists i, In i (args ++ map snd kwargs) /\ (i = NextOperand \/ exists x, i = NextOperandIf x)).
Proof.
  intros s n k b args kwargs r E. unfold lowering_function in E. destruct (LowerDeclOnly s); [discriminate|].
  destruct (negb (Lower s)); [discriminate|]. injection E as _ _ <- <- <- _. rewrite orb_true_iff, !existsb_exists. split.
  - intros [[i [I Ci]]|[[x i] [I Ci]]]; exists i; rewrite in_app_iff; (split; [|destruct i; try discriminate; eauto]); auto.
    right. apply in_map_iff. exists (x, i). auto.
  - intros [i [I Ci]]. assert (Ct : counts i = true) by (destruct Ci as [->|[x ->]]; auto).
    apply in_app_iff in I as [I|I]; [left; eauto|]. apply in_map_iff in I as [e [<- I]]. right. eauto.
Qed.
(** When there is a body at all. *)
Theorem C94_when_there_is_a_body : forall s,
  (lowering_function s = Declared <-> LowerDeclOnly s = true) /\
  (lowering_function s = Nothing <-> LowerDeclOnly s = false /\ Lower s = false).
Proof.
  intros s. unfold lowering_function. destruct (LowerDeclOnly s), (Lower s); cbn; split; split; intros; try discriminate; try tauto; destruct H; discriminate.
Qed.
End Lowering.

(** An absent optional keyword argument takes the operand of the next one, and the last one has none left. *)
Theorem C94_absent_keyword_refuted : exists (s : schema) (env : string -> option nat),
  callable nat env s /\ (forall a, In a (keyword_args s) -> is_optional a = true) /\
  (exists n k b args kwargs r, lowering_function s = Body n k b args kwargs r /\
    exec nat (has nat env) (args ++ map snd kwargs) (operands nat env s) = None /\
    exec nat (has nat env) (args ++ map snd (firstn 1 kwargs)) (operands nat env s) = Some ([Val nat 1; Val nat 2], [])) /\
  env "a" = None.
Proof.
  exists {| positional_args := [{| l_name := "x"; is_lazy := true; is_optional := false |}];
    keyword_args := [{| l_name := "a"; is_lazy := true; is_optional := true |}; {| l_name := "b"; is_lazy := true; is_optional := true |}];
    LowerDeclOnly := false; Lower := true; n_returns := 1 |},
   (fun x => if String.eqb x "x" then Some 1 else if String.eqb x "b" then Some 2 else None).
  split; [|split; [|split]].
  - intros a [<-|[<-|[<-|[]]]]; cbn; congruence.
  - intros a [<-|[<-|[]]]; auto.
  - do 6 eexists. repeat split.
  - reflexivity.
Qed.
Example C94_nonvacuous : exists (s : schema) (env : string -> option nat),
  callable nat env s /\ LowerDeclOnly s = false /\ Lower s = true /\
  (forall a, In a (keyword_args s) -> is_lazy a = true -> env (l_name a) <> None) /\
  operands nat env s = [1; 3; 4] /\ map (meant nat env) (positional_args s) = [Val nat 1; Null nat; Val nat 3; Member nat "dim"].
Proof.
  exists {| positional_args := [{| l_name := "x"; is_lazy := true; is_optional := false |}; {| l_name := "w"; is_lazy := true; is_optional := true |};
      {| l_name := "b"; is_lazy := true; is_optional := true |}; {| l_name := "dim"; is_lazy := false; is_optional := false |}];
    keyword_args := [{| l_name := "alpha"; is_lazy := false; is_optional := false |}; {| l_name := "k"; is_lazy := true; is_optional := false |}];
    LowerDeclOnly := false; Lower := true; n_returns := 1 |},
   (fun x => if String.eqb x "x" then Some 1 else if String.eqb x "b" then Some 3 else if String.eqb x "k" then Some 4 else None).
  repeat split; auto.
  - intros a [<-|[<-|[<-|[<-|[<-|[<-|[]]]]]]]; cbn; congruence.
  - intros a [<-|[<-|[]]]; cbn; congruence.
Qed.
Print Assumptions C94_operands_reach_their_arguments.
Print Assumptions C94_counter_declared_when_used.
Print Assumptions C94_when_there_is_a_body.
Print Assumptions C94_absent_keyword_refuted.
