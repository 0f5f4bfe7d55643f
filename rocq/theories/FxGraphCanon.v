(** Operator schemas of PyTorch used by the canonicalisers, and the effect of the
    canonicalisers on calls. *)
From Coq Require Import String ZArith Bool Lia List.
From Verif Require Import Prelude FxGraphModel FxGraphSpec.
Import ListNotations.
Open Scope string_scope.
Open Scope list_scope.

Definition canonical_names : list string :=
  ["torch.aten.lift_fresh_copy"; "torch.aten.lift_fresh_copy.out";
   "torch.aten.empty.memory_format"; "torch.aten._local_scalar_dense";
   "torch.aten._assert_async.msg"; "torch.aten._unsafe_index_put";
   "torch.aten._embedding_bag_forward_only"].

Lemma canonicalize_other : forall registry n sch, ~ In (s_op sch) canonical_names ->
  canonicalize registry n sch = Some (Some (n_args n, n_kwargs n, sch)).
Proof.
  intros registry n sch H. unfold canonicalize.
  repeat match goal with
  | |- context [String.eqb (s_op sch) ?c] => destruct (String.eqb_spec (s_op sch) c) as [E|_];
      [exfalso; apply H; rewrite E; simpl; tauto|]
  end. reflexivity.
Qed.

(** native_functions.yaml. *)
Definition lift_fresh_copy_schema := Sch "torch.aten.lift_fresh_copy" [P "self" JTensor None] 1.
Definition clone_schema := Sch "torch.aten.clone"
  [P "self" JTensor None; P "memory_format" (JOpt JInt) (Some (DLit LNone))] 1.
Definition local_scalar_dense_schema :=
  Sch "torch.aten._local_scalar_dense" [P "self" JTensor None] 1.
Definition float_tensor_schema a := Sch "torch.aten.Float.Tensor" [P a JTensor None] 1.
Definition int_tensor_schema a := Sch "torch.aten.Int.Tensor" [P a JTensor None] 1.
Definition unsafe_index_put_schema := Sch "torch.aten._unsafe_index_put"
  [P "self" JTensor None; P "indices" (JList (JOpt JTensor)) None; P "values" JTensor None;
   P "accumulate" JBool (Some (DLit (LBool false)))] 1.
Definition hacked_twin_schema := Sch "torch.aten._unsafe_index_put.hacked_twin"
  [P "self" JTensor None; P "indices" (JList JTensor) None; P "values" JTensor None;
   P "accumulate" JBool (Some (DLit (LBool false)))] 1.
Definition embedding_bag_fwd_schema := Sch "torch.aten._embedding_bag_forward_only"
  [P "weight" JTensor None; P "indices" JTensor None; P "offsets" JTensor None;
   P "scale_grad_by_freq" JBool (Some (DLit (LBool false)));
   P "mode" JInt (Some (DLit (LInt 0))); P "sparse" JBool (Some (DLit (LBool false)));
   P "per_sample_weights" (JOpt JTensor) (Some (DLit LNone));
   P "include_last_offset" JBool (Some (DLit (LBool false)));
   P "padding_idx" JInt (Some (DLit (LInt (-1))))] 4.
Definition embedding_bag_schema := Sch "torch.aten.embedding_bag.padding_idx"
  [P "weight" JTensor None; P "indices" JTensor None; P "offsets" JTensor None;
   P "scale_grad_by_freq" JBool None; P "mode" JInt None; P "sparse" JBool None;
   P "per_sample_weights" (JOpt JTensor) None; P "include_last_offset" JBool None;
   P "padding_idx" (JOpt JInt) None] 4.
Definition empty_schema := Sch "torch.aten.empty.memory_format"
  [P "size" (JList JInt) None; P "dtype" (JOpt JInt) (Some (DLit LNone));
   P "layout" (JOpt JInt) (Some (DLit LNone)); P "device" (JOpt JDevice) (Some (DLit LNone));
   P "pin_memory" (JOpt JBool) (Some (DLit LNone));
   P "memory_format" (JOpt JInt) (Some (DLit LNone))] 1.
Definition zeros_schema := Sch "torch.aten.zeros"
  [P "size" (JList JInt) None; P "dtype" (JOpt JInt) (Some (DLit LNone));
   P "layout" (JOpt JInt) (Some (DLit LNone)); P "device" (JOpt JDevice) (Some (DLit LNone));
   P "pin_memory" (JOpt JBool) (Some (DLit LNone))] 1.

Ltac separ := repeat match goal with
  | H : obind ?c _ = Some _ |- _ => destruct c eqn:?; [|discriminate]; cbn [obind] in H
  end;
  repeat match goal with H : Some _ = Some _ |- _ => injection H; clear H; intros; subst end.

Lemma canon_lift_fresh_copy : forall T W registry n e rs,
  (forall x, opsem T W "torch.aten.lift_fresh_copy" [x] = opsem T W "torch.aten.clone" [x; RNone]) ->
  registry "torch.aten.clone"%string = Some clone_schema ->
  n_args n <> [] ->
  eval_call T W e lift_fresh_copy_schema (n_args n) (n_kwargs n) = Some rs ->
  exists a kw sch, canonicalize registry n lift_fresh_copy_schema = Some (Some (a, kw, sch)) /\
    eval_call T W e sch a kw = Some rs.
Proof.
  intros T W registry n e rs Hop Hreg Hne He.
  destruct (n_args n) as [|a0 r] eqn:Ea; [congruence|].
  exists [a0], [("memory_format", ALit LNone)], clone_schema. split.
  - unfold canonicalize. simpl s_op. rewrite String.eqb_refl. rewrite Ea. cbn [nth_error obind].
    now rewrite Hreg.
  - unfold eval_call in *. cbn [s_params lift_fresh_copy_schema clone_schema eval_params] in *.
    unfold eval_param in *. cbn [nth_error p_name p_type p_default sget] in *.
    destruct (eval_arg T W e (Some JTensor) a0) as [x|]; [|discriminate]. cbn [obind] in *.
    rewrite String.eqb_refl. cbn. rewrite <- Hop. exact He.
Qed.

Lemma canon_local_scalar_dense : forall T W registry n e x rs (fp : rv T -> bool),
  (forall x, fp x = true -> opsem T W "torch.aten._local_scalar_dense" [x] =
                            opsem T W "torch.aten.Float.Tensor" [x]) ->
  (forall x, fp x = false -> opsem T W "torch.aten._local_scalar_dense" [x] =
                             opsem T W "torch.aten.Int.Tensor" [x]) ->
  registry "torch.aten.Float.Tensor"%string = Some (float_tensor_schema "a") ->
  registry "torch.aten.Int.Tensor"%string = Some (int_tensor_schema "a") ->
  option_map (eval_arg T W e (Some JTensor)) (nth_error (n_args n) 0) = Some (Some x) ->
  n_arg0_fp n = fp x ->
  eval_call T W e local_scalar_dense_schema (n_args n) (n_kwargs n) = Some rs ->
  exists a kw sch, canonicalize registry n local_scalar_dense_schema = Some (Some (a, kw, sch)) /\
    eval_call T W e sch a kw = Some rs.
Proof.
  intros T W registry n e x rs fp H1 H2 R1 R2 Hx Hfp He.
  destruct (n_args n) as [|a0 r] eqn:Ea; [discriminate|]. simpl in Hx. injection Hx as Hx.
  exists [a0], (n_kwargs n),
    (if fp x then float_tensor_schema "a" else int_tensor_schema "a").
  split.
  - unfold canonicalize. cbn [s_op local_scalar_dense_schema].
    rewrite Ea. cbn [nth_error obind].
    change (String.eqb "torch.aten._local_scalar_dense" "torch.aten.lift_fresh_copy") with false.
    change (String.eqb "torch.aten._local_scalar_dense" "torch.aten.lift_fresh_copy.out") with false.
    change (String.eqb "torch.aten._local_scalar_dense" "torch.aten.empty.memory_format") with false.
    change (String.eqb "torch.aten._local_scalar_dense" "torch.aten._local_scalar_dense") with true.
    cbv iota. rewrite Hfp. destruct (fp x); [rewrite R1|rewrite R2]; reflexivity.
  - unfold eval_call in *.
    cbn [s_params local_scalar_dense_schema eval_params] in He.
    unfold eval_param in He. cbn [nth_error p_type] in He. rewrite Hx in He. cbn [obind s_op local_scalar_dense_schema] in He.
    destruct (fp x) eqn:Ef; cbn [s_params float_tensor_schema int_tensor_schema eval_params];
      unfold eval_param; cbn [nth_error p_type]; rewrite Hx; cbn [obind s_op].
    + now rewrite <- H1.
    + now rewrite <- H2.
Qed.

Lemma canon_unsafe_index_put : forall T W registry n e rs,
  (forall l, opsem T W "torch.aten._unsafe_index_put" l =
             opsem T W "torch.aten._unsafe_index_put.hacked_twin" l) ->
  registry "torch.aten._unsafe_index_put.hacked_twin"%string = Some hacked_twin_schema ->
  eval_call T W e unsafe_index_put_schema (n_args n) (n_kwargs n) = Some rs ->
  exists a kw sch, canonicalize registry n unsafe_index_put_schema = Some (Some (a, kw, sch)) /\
    eval_call T W e sch a kw = Some rs.
Proof.
  intros T W registry n e rs Hop Hreg He.
  exists (n_args n), (n_kwargs n), hacked_twin_schema. split.
  - unfold canonicalize. cbn. now rewrite Hreg.
  - unfold eval_call in *. cbn [s_op hacked_twin_schema unsafe_index_put_schema] in *.
    destruct (eval_params T W e (n_args n) (n_kwargs n) 0 (s_params unsafe_index_put_schema))
      as [l|] eqn:E; [|discriminate].
    assert (E' : eval_params T W e (n_args n) (n_kwargs n) 0 (s_params hacked_twin_schema) = Some l).
    { rewrite <- E. reflexivity. }
    cbn [s_params hacked_twin_schema] in *. rewrite E'. cbn [obind] in *. now rewrite <- Hop.
Qed.

Lemma sget_snoc : forall A (l : list (string * A)) k v k',
  sget (l ++ [(k, v)]) k' =
  match sget l k' with Some x => Some x | None => if String.eqb k k' then Some v else None end.
Proof.
  induction l as [|[k0 v0] l IH]; intros; cbn [sget app]; auto. destruct (String.eqb k0 k'); auto.
Qed.
Lemma sget_add_missing : forall d kw k, sget (add_missing kw d) k =
  match sget kw k with Some x => Some x | None => option_map ALit (sget d k) end.
Proof.
  induction d as [|[k0 v0] d IH]; intros kw k; cbn [add_missing].
  - now destruct (sget kw k).
  - rewrite IH. destruct (sget kw k0) eqn:E0; cbn [sget].
    + destruct (sget kw k) eqn:Ek; auto. destruct (String.eqb_spec k0 k); auto. congruence.
    + rewrite sget_snoc. destruct (sget kw k); auto. destruct (String.eqb k0 k); auto.
Qed.

(** The value of a parameter after the missing keywords were added. *)
Lemma add_missing_param : forall T W e args kw d i k t dv v (y : rv T),
  (nth_error args i = None -> sget d k = Some dv) ->
  lit_val T W dv = Some y -> coerce T W (Some t) y = y ->
  eval_param T W e args kw i (P k t (Some (DLit dv))) = Some v ->
  eval_param T W e args (add_missing kw d) i (P k t None) = Some v.
Proof.
  intros T W e args kw d i k t dv v y Hd Hy Hc H. unfold eval_param in *.
  cbn [p_name p_type p_default] in *. destruct (nth_error args i); auto.
  rewrite sget_add_missing. destruct (sget kw k); auto. rewrite Hd; auto. simpl.
  unfold eval_arg. simpl in *. rewrite Hy in *. simpl. now rewrite Hc.
Qed.

Lemma bag_default : forall (A : Type) (args : list A) i k dv,
  (3 <= length args)%nat -> In (i, k, dv) [(3, "scale_grad_by_freq", LBool false);
     (4, "mode", LInt 0); (5, "sparse", LBool false); (6, "per_sample_weights", LNone);
     (7, "include_last_offset", LBool false); (8, "padding_idx", LNone)]%nat ->
  nth_error args i = None -> sget (slice_from embedding_bag_args (zlen args - 3)) k = Some dv.
Proof.
  intros A args i k dv Hl Hin Hn. apply nth_error_None in Hn. unfold zlen.
  assert (Hz : In (Z.of_nat (length args)) [3; 4; 5; 6; 7; 8]%Z /\
     (Z.of_nat (length args) <= Z.of_nat i)%Z).
  { simpl in Hin. repeat destruct Hin as [[= <- <- <-]|Hin]; try contradiction; simpl; lia. }
  destruct Hz as [Hz Hi]. generalize dependent (Z.of_nat (length args)). intros z Hz Hi.
  simpl in Hz, Hin.
  repeat destruct Hin as [[= <- <- <-]|Hin]; try contradiction;
  repeat destruct Hz as [<-|Hz]; try contradiction; try lia; reflexivity.
Qed.

Lemma canon_embedding_bag : forall T W registry n e a b c d m s p l x rs,
  registry "torch.aten.embedding_bag.padding_idx"%string = Some embedding_bag_schema ->
  (3 <= length (n_args n))%nat ->
  eval_params T W e (n_args n) (n_kwargs n) 0 (s_params embedding_bag_fwd_schema) =
    Some [a; b; c; d; m; s; p; l; x] ->
  (forall q y, nth_error (n_args n) 8 = Some q \/ sget (n_kwargs n) "padding_idx" = Some q ->
     eval_elem T W e q <> Some (RBool y)) ->
  opsem T W "torch.aten.embedding_bag.padding_idx"
    [a; b; c; d; m; s; p; l;
     if (match nth_error (n_args n) 8, sget (n_kwargs n) "padding_idx" with
         | None, None => true | _, _ => false end) then RNone else x] = Some rs ->
  exists a' kw sch, canonicalize registry n embedding_bag_fwd_schema = Some (Some (a', kw, sch)) /\
    eval_call T W e sch a' kw = Some rs.
Proof.
  intros T W registry n e a b c d m s p l x rs Hreg Hlen He Hx Hop.
  set (kw' := add_missing (n_kwargs n) (slice_from embedding_bag_args (zlen (n_args n) - 3))).
  exists (n_args n), kw', embedding_bag_schema. split.
  - unfold canonicalize. cbn -[add_missing embedding_bag_args slice_from zlen].
    rewrite Hreg. reflexivity.
  - unfold eval_call. cbn [s_op embedding_bag_schema].
    match goal with |- obind ?q _ = _ => assert (E : q = Some [a; b; c; d; m; s; p; l;
      if (match nth_error (n_args n) 8, sget (n_kwargs n) "padding_idx" with
         | None, None => true | _, _ => false end) then RNone else x]) end.
    2: { rewrite E. exact Hop. }
    clear Hop Hreg rs.
    cbn [s_params embedding_bag_fwd_schema embedding_bag_schema eval_params] in *.
    assert (B : forall i k dv, In (i, k, dv) [(3, "scale_grad_by_freq", LBool false);
     (4, "mode", LInt 0); (5, "sparse", LBool false); (6, "per_sample_weights", LNone);
     (7, "include_last_offset", LBool false); (8, "padding_idx", LNone)]%nat ->
     nth_error (n_args n) i = None ->
     sget (slice_from embedding_bag_args (zlen (n_args n) - 3)) k = Some dv).
    { intros. eapply bag_default; eauto. }
    assert (R : forall i k t, (i < 3)%nat ->
       eval_param T W e (n_args n) (n_kwargs n) i (P k t None) =
       eval_param T W e (n_args n) kw' i (P k t None)).
    { intros i k t Hi. unfold eval_param. destruct (nth_error (n_args n) i) eqn:En; auto.
      apply nth_error_None in En. lia. }
    rewrite !R in He by lia. separ.
    cbn [obind].
    assert (S3 : eval_param T W e (n_args n) kw' 3 (P "scale_grad_by_freq" JBool None) = Some d).
    { eapply add_missing_param; [| | |eassumption]; [apply B; simpl; tauto|reflexivity|reflexivity]. }
    assert (S4 : eval_param T W e (n_args n) kw' 4 (P "mode" JInt None) = Some m).
    { eapply add_missing_param; [| | |eassumption]; [apply B; simpl; tauto|reflexivity|reflexivity]. }
    assert (S5 : eval_param T W e (n_args n) kw' 5 (P "sparse" JBool None) = Some s).
    { eapply add_missing_param; [| | |eassumption]; [apply B; simpl; tauto|reflexivity|reflexivity]. }
    assert (S6 : eval_param T W e (n_args n) kw' 6 (P "per_sample_weights" (JOpt JTensor) None) = Some p).
    { eapply add_missing_param; [| | |eassumption]; [apply B; simpl; tauto|reflexivity|reflexivity]. }
    assert (S7 : eval_param T W e (n_args n) kw' 7 (P "include_last_offset" JBool None) = Some l).
    { eapply add_missing_param; [| | |eassumption]; [apply B; simpl; tauto|reflexivity|reflexivity]. }
    rewrite ?Heqo, ?Heqo1, ?Heqo3. cbn [obind]. rewrite S3, S4, S5, S6, S7. cbn [obind].
    assert (S8 : eval_param T W e (n_args n) kw' 8 (P "padding_idx" (JOpt JInt) None) = Some
      (if (match nth_error (n_args n) 8, sget (n_kwargs n) "padding_idx" with
         | None, None => true | _, _ => false end) then RNone else x)).
    { match goal with H : eval_param T W e _ _ 8 _ = Some x |- _ => rename H into H8 end.
      assert (C : forall q, (nth_error (n_args n) 8 = Some q \/
                     sget (n_kwargs n) "padding_idx" = Some q) -> eval_arg T W e (Some JInt) q = Some x ->
                  eval_arg T W e (Some (JOpt JInt)) q = Some x).
      { intros q Hq0 Hq. specialize (Hx q). unfold eval_arg in *.
        destruct (eval_elem T W e q) as [y|]; [|discriminate].
        simpl in *. destruct y; auto. exfalso. eapply Hx; eauto. }
      unfold eval_param in *. cbn [p_name p_type p_default] in *.
      destruct (nth_error (n_args n) 8) eqn:E8; auto.
      unfold kw'. rewrite sget_add_missing. destruct (sget (n_kwargs n) "padding_idx"); auto.
      rewrite (B 8%nat "padding_idx" LNone); [reflexivity|simpl; tauto|exact E8]. }
    rewrite S8. reflexivity.
Qed.

Lemma canon_empty : forall T W registry n e a b c d m x,
  registry "torch.aten.zeros"%string = Some zeros_schema ->
  eval_params T W e (n_args n) (n_kwargs n) 0 (s_params empty_schema) = Some [a; b; c; d; m; x] ->
  exists sch, canonicalize registry n empty_schema = Some (Some (n_args n, n_kwargs n, sch)) /\
    eval_call T W e sch (n_args n) (n_kwargs n) =
      if n_zeros n then opsem T W "torch.aten.zeros" [a; b; c; d; m]
      else opsem T W "torch.aten.empty.memory_format" [a; b; c; d; m; x].
Proof.
  intros T W registry n e a b c d m x Hreg He.
  exists (if n_zeros n then zeros_schema else empty_schema). split.
  - unfold canonicalize. cbn. destruct (n_zeros n); auto. now rewrite Hreg.
  - destruct (n_zeros n).
    + unfold eval_call. cbn [s_params zeros_schema empty_schema eval_params] in *.
      separ. cbn. reflexivity.
    + unfold eval_call. rewrite He. reflexivity.
Qed.
