(** C91: flex_attention calls. *)
From Coq Require Import String ZArith Bool Lia List.
From Verif Require Import Prelude FxGraphModel FxGraphSpec FxGraphProofs FxFlexModel.
Import ListNotations.
Open Scope Z_scope.

Section Flex.
Variable T : Type.
Variable W : world T.
Variable g : graph.
Variable m0 : mach T.
Variable efin : fenv T.
Variables (get_attr_target : string -> option string) (submodule : string -> option nat).
Variables (func_name : nat -> option string) (to_float : lit -> Z).
Notation importer := (import_flex (g_attr g) get_attr_target submodule func_name to_float).

(** ** Specification *)
(** The value of the scale argument: nothing, a float for a number, else the argument. *)
Definition scale_value (e : fenv T) (a : arg) : option (rv T) :=
  match a with
  | ALit LNone => Some RNone
  | ALit (LBool b) => Some (RFloat (to_float (LBool b)))
  | ALit (LInt z) => Some (RFloat (to_float (LInt z)))
  | ALit (LFloat f) => Some (RFloat (to_float (LFloat f)))
  | _ => eval_arg T W e None a
  end.
(** A kernel option is on when the dict has it with a true value. *)
Definition asked (d : list (string * bool)) (k : string) (b : bool) : Prop :=
  b = true <-> sget d k = Some true.
(** [a] is a node reading a submodule imported as function [f]. *)
Definition names_function (a : arg) (f : string) : Prop :=
  exists n t md, a = ANode n /\ get_attr_target n = Some t /\ submodule t = Some md /\ func_name md = Some f.

Lemma option_set_spec : forall d k, asked d k (option_set d k).
Proof.
  intros d k. unfold asked, option_set. destruct (sget d k) as [b|]; [|split; discriminate].
  split; [intros ->; reflexivity|congruence].
Qed.
Lemma callee_spec : forall a f, callee get_attr_target submodule func_name a = Some f ->
  forall s, f = Some s <-> names_function a s.
Proof.
  intros a f H s. unfold callee in H. split.
  - intros ->. destruct a as [n|l|l|l]; try discriminate.
    destruct (get_attr_target n) as [t|] eqn:E1; [|discriminate]. cbn [obind] in H.
    destruct (submodule t) as [md|] eqn:E2; [|discriminate].
    destruct (func_name md) as [u|] eqn:E3; [|discriminate]. injection H as <-. exists n, t, md. auto.
  - intros (n & t & md & -> & E1 & E2 & E3). rewrite E1 in H. cbn [obind] in H. rewrite E2, E3 in H.
    cbn in H. congruence.
Qed.

Lemma results_ops : forall n vs i s s', bind_results n i vs s = Some s' -> s_hooks s = [] ->
  s_ops s' = s_ops s /\ forall j v, nth_error vs j = Some v -> vget (s_vals s') (n, (i + j)%nat) = Some (BVal v).
Proof.
  intros n vs. induction vs as [|v r IH]; intros i s s' H Hh; cbn in H.
  - injection H as <-. split; [reflexivity|]. intros [|j] v; discriminate.
  - unfold bind in H. destruct (vget (s_vals s) (n, i)) eqn:Ev; [discriminate|]. cbn in H. rewrite Hh in H.
    cbn [sget obind] in H. destruct (IH _ _ _ H) as [A B]; [exact Hh|]. cbn in A. split; [exact A|].
    intros [|j] w Hj; cbn in Hj.
    + injection Hj as <-. rewrite Nat.add_0_r.
      assert (K : forall r i s s' k b, bind_results n i r s = Some s' -> vget (s_vals s) k = Some b ->
         vget (s_vals s') k = Some b).
      { clear. induction r as [|v r IH]; intros i s s' k b H Hk; cbn in H; [injection H as <-; exact Hk|].
        unfold bind in H. destruct (vget (s_vals s) (n, i)) eqn:Ev; [discriminate|].
        assert (N : keyb (n, i) k = false).
        { destruct (keyb (n, i) k) eqn:E; [|reflexivity]. unfold keyb in E. apply andb_true_iff in E.
          destruct E as [E1 E2]. apply String.eqb_eq in E1. apply Nat.eqb_eq in E2. destruct k; cbn in *; subst. congruence. }
        match type of H with obind ?c _ = _ => destruct c as [s1|] eqn:E1; [|discriminate] end. cbn [obind] in H.
        apply (IH _ _ _ k b H).
        assert (V : s_vals s1 = ((n, i), BVal v) :: s_vals s).
        { cbn in E1. destruct (sget (s_hooks s) n) as [h|]; [|injection E1 as <-; reflexivity].
          unfold fire in E1. destruct h; injection E1 as <-; reflexivity. }
        rewrite V. cbn. now rewrite N. }
      apply (K _ _ _ _ _ _ H). cbn. unfold keyb. cbn. now rewrite String.eqb_refl, Nat.eqb_refl.
    + rewrite Nat.add_succ_r. exact (B j w Hj).
Qed.

Hypothesis Hbool : bool_cast_ok T W.
Hypothesis Hnames : NoDup (map n_name g).
Hypothesis Hmeta : meta_ok T g efin.
Notation simulates := (sim T W g m0 [] (fun _ _ => False) efin).

Lemma no_hooks : forall e s m, simulates e s m -> s_hooks s = [].
Proof. intros e s m H. apply (sim_hooks _ _ _ _ _ _ _ _ _ _ H). Qed.
Lemma arg_value : forall a e s m v s' x, simulates e s m ->
  import_arg (g_attr g) None a s = Some (v, s') -> eval_arg T W e None a = Some x ->
  exists m', simulates e s' m' /\ ext T m m' /\ eget T (m_env T m') (vid v) = Some x.
Proof.
  intros a e s m v s' x S H E.
  destruct (import_arg_sim T W g m0 [] (fun _ _ => False) efin Hbool Hnames Hmeta) with
    (t := @None jt) (a := a) (e := e) (s := s) (m := m) (v := v) (s' := s') (x := x)
    as (m' & A & B & C & _); auto; try discriminate; try contradiction.
  exists m'. auto.
Qed.

(** C91. The call becomes one torch.hop_flex_attention, the last operation, whose operands
    are the query, key, value, scale and the two options; its results are bound to the node
    with the recorded types. *)
Theorem C91_operands_and_results : forall e s m n q k v score mask scale opts extra s' sym xq xk xv xs,
  simulates e s m ->
  fn_args n = FArg q :: FArg k :: FArg v :: FArg score :: FArg mask :: FArg scale :: FDict opts :: extra ->
  importer n s = Some (s', sym) ->
  eval_arg T W e None q = Some xq -> eval_arg T W e None k = Some xk -> eval_arg T W e None v = Some xv ->
  scale_value e scale = Some xs ->
  exists pre args rs m' b1 b2,
    s_ops s' = pre ++ [Op (KTorch "torch.hop_flex_attention") args (map vid rs)] /\
    run T W m0 pre = Some m' /\
    mapM (eget T (m_env T m')) args = Some [xq; xk; xv; xs; RBool b1; RBool b2] /\
    asked opts "OUTPUT_LOGSUMEXP" b1 /\ asked opts "OUTPUT_MAX" b2 /\
    (match fn_vals n with
     | Some vs => if (2 <=? length vs)%nat then map (fun r => Some (vty r)) rs = vs
                  else map (fun r => Some (vty r)) rs = [fn_ty n]
     | None => map (fun r => Some (vty r)) rs = [fn_ty n]
     end) /\
    forall i r, nth_error rs i = Some r -> vget (s_vals s') (fn_name n, i) = Some (BVal r).
Proof.
  intros e s m n q k v score mask scale opts extra s' sym xq xk xv xs S Ha H Eq Ek Ev Es.
  unfold import_flex in H. rewrite Ha in H. cbn [firstn] in H.
  destruct (import_arg (g_attr g) None q s) as [[qv s1]|] eqn:E1; [|discriminate]. cbn [obind] in H.
  destruct (import_arg (g_attr g) None k s1) as [[kv s2]|] eqn:E2; [|discriminate]. cbn [obind] in H.
  destruct (import_arg (g_attr g) None v s2) as [[vv s3]|] eqn:E3; [|discriminate]. cbn [obind] in H.
  destruct (callee get_attr_target submodule func_name score) as [f|]; [|discriminate]. cbn [obind] in H.
  destruct (mask_callee get_attr_target submodule func_name mask) as [mk|]; [|discriminate]. cbn [obind] in H.
  destruct (import_scale (g_attr g) to_float scale s3) as [[sv s4]|] eqn:E4; [|discriminate]. cbn [obind] in H.
  destruct (flex_types n) as [[tys multi]|] eqn:E5; [|discriminate]. cbn [obind] in H.
  destruct (arg_value _ _ _ _ _ _ _ S E1 Eq) as (m1 & S1 & X1 & V1).
  destruct (arg_value _ _ _ _ _ _ _ S1 E2 Ek) as (m2 & S2 & X2 & V2).
  destruct (arg_value _ _ _ _ _ _ _ S2 E3 Ev) as (m3 & S3 & X3 & V3).
  assert (C : forall l t s m v s' x, simulates e s m -> emit1 (KConst l) [] t s = (v, s') ->
     lit_val T W l = Some x -> has_ty T t x ->
     exists m', simulates e s' m' /\ ext T m m' /\ eget T (m_env T m') (vid v) = Some x).
  { clear - Hbool Hnames Hmeta. intros l t s m v s' x S H L Ht.
    destruct (emit1_sim T W g m0 [] (fun _ _ => False) efin ltac:(cbn; discriminate) e s m (KConst l) [] t [] x v s') as (m' & A & B & D & _); auto.
    - cbn. now rewrite L.
    - exists m'. auto. }
  assert (Q : exists m4, simulates e s4 m4 /\ ext T m3 m4 /\ eget T (m_env T m4) (vid sv) = Some xs).
  { destruct scale as [x|l|l|l]; try (exact (arg_value _ _ _ _ _ _ _ S3 E4 Es)).
    destruct l; try (exact (arg_value _ _ _ _ _ _ _ S3 E4 Es)); cbn in E4, Es; injection Es as <-; injection E4 as E4 E4';
    [apply (C LNone TyNone s3 m3 sv s4)|apply (C (LFloat (to_float (LBool b))) TyFloat s3 m3 sv s4)
    |apply (C (LFloat (to_float (LInt z))) TyFloat s3 m3 sv s4)
    |apply (C (LFloat (to_float (LFloat f0))) TyFloat s3 m3 sv s4)];
    auto; try (unfold emit1; cbn; rewrite <- E4, <- E4'; reflexivity); try exact I. }
  destruct Q as (m4 & S4 & X4 & V4).
  set (b1 := option_set opts "OUTPUT_LOGSUMEXP") in *. set (b2 := option_set opts "OUTPUT_MAX") in *.
  destruct (emit1 (KConst (LBool b1)) [] TyBool s4) as [lv t6] eqn:E6.
  destruct (C _ _ _ _ _ _ (RBool b1) S4 E6 eq_refl I) as (m6 & S6 & X6 & V6).
  destruct (emit1 (KConst (LBool b2)) [] TyBool t6) as [xv7 t7] eqn:E7.
  destruct (C _ _ _ _ _ _ (RBool b2) S6 E7 eq_refl I) as (m7 & S7 & X7 & V7).
  assert (Hh := no_hooks _ _ _ S4).
  set (s5 := if multi then set_multi (fn_name n :: s_multi s4) s4 else s4) in *.
  assert (F : s_ops s5 = s_ops s4 /\ s_next s5 = s_next s4 /\ s_hooks s5 = s_hooks s4).
  { unfold s5. destruct multi; auto. }
  destruct F as (F1 & F2 & F3).
  unfold emit1, emit in H, E6, E7. cbn in H. injection E6 as <- <-. injection E7 as <- <-. cbn in V6, V7.
  match type of H with obind ?c _ = _ => destruct c as [s9|] eqn:E9; [|discriminate] end.
  cbn [obind] in H. injection H as <- <-.
  apply results_ops in E9; [|cbn; rewrite F3; exact Hh]. destruct E9 as [O9 B9]. cbn in O9.
  exists (s_ops (snd (emit1 (KConst (LBool b2)) [] TyBool (snd (emit1 (KConst (LBool b1)) [] TyBool s4))))).
  exists [vid qv; vid kv; vid vv; vid sv; s_next s4; (s_next s4 + 1)%nat].
  exists (mkvals (s_next s5 + 1 + 1) tys), m7, b1, b2.
  assert (Up : forall a b i x, ext T a b -> eget T (m_env T a) i = Some x -> eget T (m_env T b) i = Some x) by (intros; auto).
  split; [|split; [|split; [|split; [|split; [|split]]]]].
  - cbn. rewrite O9, F1, F2. reflexivity.
  - exact (sim_run _ _ _ _ _ _ _ _ _ _ S7).
  - cbn [mapM].
    rewrite (Up m6 m7 (vid qv) xq), (Up m6 m7 (vid kv) xk), (Up m6 m7 (vid vv) xv), (Up m6 m7 (vid sv) xs),
      (Up m6 m7 (s_next s4) (RBool b1)), V7; auto 8; try reflexivity.
  - apply option_set_spec.
  - apply option_set_spec.
  - assert (K : forall (us : list ty) j, map (fun r => Some (vty r)) (mkvals j us) = map Some us).
    { clear. induction us as [|u us IH]; intros j; cbn; [reflexivity|now rewrite IH]. }
    rewrite K. unfold flex_types in E5.
    assert (One : (do t <- fn_ty n; Some ([t], false)) = Some (tys, multi) -> map Some tys = [fn_ty n]).
    { destruct (fn_ty n); [|discriminate]. intros X. injection X as <- <-. reflexivity. }
    destruct (fn_vals n) as [vs|]; [|exact (One E5)].
    destruct (2 <=? length vs)%nat; [|exact (One E5)].
    destruct (mapM (fun x => x) vs) as [us|] eqn:Em; [|discriminate]. injection E5 as <- <-.
    clear - Em. revert us Em. induction vs as [|[u|] vs IH]; intros us E; cbn in E; try discriminate.
    + injection E as <-. reflexivity.
    + destruct (mapM (fun x => x) vs) as [ws|]; [|discriminate]. injection E as <-. cbn. now rewrite (IH ws eq_refl).
  - intros i r Hr. apply B9 in Hr. exact Hr.
Qed.
End Flex.

Lemma pyidx_last : forall A (l : list A) a, pyidx (l ++ [a]) (-1) = Some a.
Proof.
  intros A l a. unfold pyidx, zlen. rewrite app_length. cbn [length].
  destruct (Z.ltb_spec (-1) 0); [|lia]. destruct (Z.ltb_spec (-1 + Z.of_nat (length l + 1)) 0); [lia|].
  replace (Z.to_nat (-1 + Z.of_nat (length l + 1))) with (length l) by lia.
  rewrite nth_error_app2, Nat.sub_diag by lia. reflexivity.
Qed.

(** C91. The symbols are those of the two functions, exactly when these are given as
    submodules; the mask function is the last element of a tuple. *)
Theorem C91_symbols : forall attr_of get_attr_target submodule func_name to_float n q k v score mask scale opts extra s s' sym,
  fn_args n = FArg q :: FArg k :: FArg v :: FArg score :: FArg mask :: FArg scale :: FDict opts :: extra ->
  import_flex attr_of get_attr_target submodule func_name to_float n s = Some (s', sym) ->
  (forall f, score_mod_fn sym = Some f <-> names_function get_attr_target submodule func_name score f) /\
  (forall f, mask_mod_fn sym = Some f <-> exists l a, mask = ATuple (l ++ [a]) /\
     names_function get_attr_target submodule func_name a f).
Proof.
  intros attr_of gt sm fn tf n q k v score mask scale opts extra s s' sym Ha H.
  unfold import_flex in H. rewrite Ha in H. cbn [firstn] in H.
  destruct (import_arg attr_of None q s) as [[qv s1]|]; [|discriminate]. cbn [obind] in H.
  destruct (import_arg attr_of None k s1) as [[kv s2]|]; [|discriminate]. cbn [obind] in H.
  destruct (import_arg attr_of None v s2) as [[vv s3]|]; [|discriminate]. cbn [obind] in H.
  destruct (callee gt sm fn score) as [f|] eqn:Ef; [|discriminate]. cbn [obind] in H.
  destruct (mask_callee gt sm fn mask) as [mk|] eqn:Em; [|discriminate]. cbn [obind] in H.
  destruct (import_scale attr_of tf scale s3) as [[sv s4]|]; [|discriminate]. cbn [obind] in H.
  destruct (flex_types n) as [[tys multi]|]; [|discriminate]. cbn [obind] in H.
  match type of H with (let '(_, _) := ?e1 in _) = _ => destruct e1 as [lv s6] end.
  match type of H with (let '(_, _) := ?e1 in _) = _ => destruct e1 as [mv s7] end.
  match type of H with (let '(_, _) := ?e1 in _) = _ => destruct e1 as [rs s8] end.
  match type of H with obind ?c _ = _ => destruct c as [s9|]; [|discriminate] end.
  cbn [obind] in H. injection H as <- <-. cbn. split.
  - intros x. exact (callee_spec gt sm fn score f Ef x).
  - intros x. unfold mask_callee in Em. split.
    + intros ->. destruct mask as [?|?|?|l]; try discriminate.
      destruct (pyidx l (-1)) as [a|] eqn:Ep; [|discriminate]. cbn [obind] in Em.
      destruct (rev l) as [|b r] eqn:Er.
      { apply (f_equal (@rev arg)) in Er. rewrite rev_involutive in Er. subst l. discriminate. }
      apply (f_equal (@rev arg)) in Er. rewrite rev_involutive in Er. cbn in Er. subst l.
      assert (a = b).
      { rewrite pyidx_last in Ep. congruence. }
      subst b. exists (rev r), a. split; [reflexivity|]. now apply (callee_spec gt sm fn a _ Em).
    + intros (l & a & -> & Hn). rewrite pyidx_last in Em. cbn [obind] in Em.
      now apply (callee_spec gt sm fn a _ Em).
Qed.

(** The functions are refused exactly when a node is not a get_attr, when the module it names has no function, and for an empty tuple. *)
Definition refused (get_attr_target : string -> option string) (submodule : string -> option nat) (func_name : nat -> option string) (a : arg) : Prop :=
  exists n, a = ANode n /\ (get_attr_target n = None \/ exists t m, get_attr_target n = Some t /\ submodule t = Some m /\ func_name m = None).
Theorem C91_functions_refused : forall get_attr_target submodule func_name a,
  (callee get_attr_target submodule func_name a = None <-> refused get_attr_target submodule func_name a) /\
  (mask_callee get_attr_target submodule func_name a = None <->
   a = ATuple [] \/ exists l b, a = ATuple (l ++ [b]) /\ refused get_attr_target submodule func_name b).
Proof.
  intros gt sm fn. assert (C : forall a, callee gt sm fn a = None <-> refused gt sm fn a).
  { intros a. unfold callee, refused. destruct a as [n|?|?|?]; try (split; [discriminate|intros (? & [= ] & _)]).
    destruct (gt n) as [t|] eqn:G; cbn [obind]; [|split; eauto].
    destruct (sm t) as [m|] eqn:M; [|split; [discriminate|intros (? & [= <-] & [H|(t' & m & H & H' & _)]); congruence]].
    destruct (fn m) as [f|] eqn:F; cbn [obind]; split; try discriminate.
    - intros (? & [= <-] & [H|(t' & m' & H & H' & H'')]); congruence.
    - intros _. exists n. split; auto. right. exists t, m. auto.
    - auto. }
  intros a. split; [apply C|]. unfold mask_callee.
  destruct a as [n|?|?|l]; try (split; [discriminate|intros [[= ]|(? & ? & [= ] & _)]]).
  destruct l as [|x l _] using rev_ind.
  - split; auto.
  - rewrite pyidx_last. cbn [obind]. rewrite C. split.
    + intros R. right. exists l, x. auto.
    + intros [H|(k & b & H & R)]; [destruct l; discriminate|]. injection H as H. apply app_inj_tail in H as [_ ->]. auto.
Qed.
(** The results: the recorded ones if there are at least two, else the node's own. *)
Theorem C91_result_types : forall n tys multi, flex_types n = Some (tys, multi) <->
  (multi = true /\ (2 <= length tys)%nat /\ fn_vals n = Some (map Some tys)) \/
  (multi = false /\ (forall vs, fn_vals n = Some vs -> (length vs < 2)%nat) /\ exists t, fn_ty n = Some t /\ tys = [t]).
Proof.
  assert (M : forall vs ts, mapM (fun x : option ty => x) vs = Some ts <-> vs = map Some ts).
  { induction vs as [|v vs IH]; intros ts; cbn.
    - split; [intros [= <-]; auto|destruct ts; [auto|discriminate]].
    - destruct v as [v|]; cbn [obind]; [|split; [discriminate|destruct ts; discriminate]].
      destruct (mapM _ vs) as [k|] eqn:E; cbn [obind].
      + split; [intros [= <-]; cbn; f_equal; now apply IH|]. destruct ts as [|t ts]; [discriminate|].
        cbn. intros [= -> H]. apply IH in H. congruence.
      + split; [discriminate|]. destruct ts as [|t ts]; [discriminate|]. cbn. intros [= -> H]. apply IH in H. congruence. }
  intros n tys multi. unfold flex_types. destruct (fn_vals n) as [vs|].
  - destruct (Nat.leb_spec 2 (length vs)) as [L|L].
    + destruct (mapM _ vs) as [ts|] eqn:E; cbn [obind].
      * assert (E' := E). apply M in E'. subst vs. rewrite map_length in L. split.
        -- intros [= <- <-]. left. auto.
        -- intros [(-> & _ & H)|(-> & H & _)]; [|specialize (H _ eq_refl); rewrite map_length in H; lia].
           injection H as H. assert (H' := proj2 (M (map Some ts) tys) H). rewrite E in H'. injection H' as ->. reflexivity.
      * split; [discriminate|]. intros [(-> & _ & H)|(-> & H & _)]; [|specialize (H _ eq_refl); lia].
        injection H as H. apply M in H. congruence.
    + destruct (fn_ty n) as [t|]; cbn [obind].
      * split; [intros [= <- <-]; right; split; auto; split; eauto; intros ? [= <-]; auto|].
        intros [(-> & H & H')|(-> & _ & t' & [= <-] & ->)]; auto. injection H' as ->. rewrite map_length in L. lia.
      * split; [discriminate|]. intros [(-> & H & H')|(-> & _ & t' & [= ] & _)]. injection H' as ->. rewrite map_length in L. lia.
  - destruct (fn_ty n) as [t|]; cbn [obind].
    + split; [intros [= <- <-]; right; split; auto; split; eauto; discriminate|].
      intros [(-> & H & [= ])|(-> & _ & t' & [= <-] & ->)]; auto.
    + split; [discriminate|]. intros [(-> & H & [= ])|(-> & _ & t' & [= ] & _)].
Qed.
Print Assumptions C91_functions_refused.
Print Assumptions C91_result_types.

(** Tensors captured by the two functions follow the seven arguments; they are dropped: the
    call imported with them is the call imported without them. *)
Theorem C91_captured_tensors_refuted : forall attr_of get_attr_target submodule func_name to_float n s extra,
  length (fn_args n) = 7%nat ->
  import_flex attr_of get_attr_target submodule func_name to_float
    (FN (fn_name n) (fn_args n ++ extra) (fn_ty n) (fn_vals n)) s =
  import_flex attr_of get_attr_target submodule func_name to_float n s.
Proof.
  intros attr_of gt sm fn tf n s extra H. unfold import_flex. cbn [fn_args fn_name].
  rewrite firstn_app, H. cbn [Nat.sub firstn]. rewrite app_nil_r. reflexivity.
Qed.

Definition ex_flex : fnode := FN "attn"
  [FArg (ALit (LTensor 1 false)); FArg (ALit (LTensor 2 false)); FArg (ALit (LTensor 3 false));
   FArg (ANode "sm"); FArg (ATuple [ALit (LInt 128); ANode "mm"]); FArg (ALit (LInt 2));
   FDict [("OUTPUT_LOGSUMEXP", true); ("OUTPUT_MAX", false)]]%string
  None (Some [Some TyVTensor; Some TyVTensor]).
Definition ex_target (n : string) : option string :=
  if String.eqb n "sm" then Some "sdpa_score0"%string
  else if String.eqb n "mm" then Some "sdpa_mask0"%string else None.
Definition ex_submodule (n : string) : option nat :=
  if String.eqb n "sdpa_score0" then Some 0%nat else if String.eqb n "sdpa_mask0" then Some 1%nat else None.
Definition ex_func (m : nat) : option string := nth_error ["score_fn"; "mask_fn"]%string m.
Definition ex_world : world Z := {| tensor_of := Z.of_nat; u8_of := fun i => Z.of_nat i + 11;
  num_tensor := fun _ => 0; float_of_bool := fun _ => 0; opsem := fun n l => match l with
    [RT a; _] => if String.eqb n convert_elt then Some [RT (a - 11)] else None | _ => None end |}.
Example C91_nonvacuous : exists s',
  bool_cast_ok Z ex_world /\ sim Z ex_world [] (M [] []) [] (fun _ _ => False) [] [] (empty_st 0) (M [] []) /\
  import_flex (g_attr []) ex_target ex_submodule ex_func (fun _ => 7) ex_flex (empty_st 0) =
    Some (s', Sym (Some "score_fn") (Some "mask_fn"))%string /\
  map o_args (s_ops s') = [[]; []; []; []; []; []; [0; 1; 2; 3; 4; 5]]%nat /\ s_multi s' = ["attn"%string].
Proof.
  eexists. split; [|split; [|split; [vm_compute; reflexivity|split; reflexivity]]].
  - intros id. change (Some [RT (Z.of_nat id + 11 - 11)] = Some [RT (Z.of_nat id)]). do 3 f_equal. lia.
  - constructor; cbn; try discriminate; try contradiction; auto.
Qed.

Print Assumptions C91_operands_and_results.
Print Assumptions C91_symbols.
Print Assumptions C91_captured_tensors_refuted.
