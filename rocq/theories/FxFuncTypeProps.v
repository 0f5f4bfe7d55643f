(** C90: the declared type of an imported function is the type of its body. *)
From Coq Require Import String ZArith Bool Lia List.
From Verif Require Import Prelude FxGraphModel FxGraphProofs FxGraphProps FxFrozenModel
  FxFrozenProps.
Import ListNotations.
Open Scope Z_scope.

Section Types.
Variable registry : string -> option schema.
Variable g : graph.

(** ** Specification: metadata that agrees with itself *)
(** The schema of the operation finally emitted for a node. *)
Definition emits (n : node) (sch : schema) : Prop :=
  (exists sch0, n_op n = Call (TConcrete sch0) /\
     pick_schema (g_scalar g) registry sch0 (n_args n) = Some sch) \/
  (exists sch0 a kw sch1, n_op n = Call (TOverload sch0) /\
     canonicalize registry n sch0 = Some (Some (a, kw, sch1)) /\
     pick_schema (g_scalar g) registry sch1 a = Some sch).
Record metadata_agrees : Prop := {
  (* a constant has the type of its value *)
  ma_attr : forall n l t, In n g -> n_op n = GetAttr (Some l) -> n_ty n = Some t -> t = lit_ty l;
  (* an item has the type recorded for it in the tuple or list *)
  ma_item : forall n r i x ts t, In n g -> n_op n = Call TGetitem ->
     n_args n = [ANode r; ALit (LInt i)] -> find_node g r = Some x -> n_tys x = Some ts ->
     n_ty n = Some t -> pyidx ts i = Some t;
  (* several results are recorded as several values *)
  ma_many : forall n sch ts, In n g -> emits n sch -> (2 <= s_returns sch)%nat ->
     n_tys n = Some ts -> length ts <> 1%nat }.

(** ** Invariant of the importer's tables *)
Record inv (pre : list string) (s : st) : Prop := {
  i_val : forall n i b, vget (s_vals s) (n, i) = Some b ->
    match b with
    | BLazy _ => False
    | BNone => True
    | BVal v => exists x, find_node g n = Some x /\
        if memb n (s_multi s) then exists ts, n_tys x = Some ts /\ nth_error ts i = Some (vty v)
        else i = 0%nat -> forall t, n_ty x = Some t -> t = vty v
    end;
  i_unpack : forall r vs, sget (s_unpack s) r = Some vs ->
    exists x, find_node g r = Some x /\ n_tys x = Some (map vty vs);
  i_fresh : forall n i, vget (s_vals s) (n, i) <> None -> In n pre \/ g_attr g n <> None;
  i_multi : forall n, memb n (s_multi s) = true -> In n pre }.

Lemma inv_same : forall pre s s', s_vals s' = s_vals s -> s_multi s' = s_multi s ->
  s_unpack s' = s_unpack s -> inv pre s -> inv pre s'.
Proof. intros pre s s' E1 E2 E3 []. constructor; rewrite ?E1, ?E2, ?E3; auto. Qed.
Lemma inv_emit : forall pre k a t s, inv pre s -> inv pre (snd (emit k a t s)).
Proof. intros. now apply (inv_same pre s). Qed.
Lemma inv_pre : forall pre pre' s, incl pre pre' -> inv pre s -> inv pre' s.
Proof.
  intros pre pre' s H []. constructor; auto.
  intros n i Hn. destruct (i_fresh0 n i Hn); auto.
Qed.
Lemma mkvals_tys : forall ts n, map vty (mkvals n ts) = ts.
Proof. induction ts as [|t ts IH]; intros n; cbn; [reflexivity|now rewrite IH]. Qed.

Lemma const_inv : forall pre l s v s', import_const l s = Some (v, s') -> inv pre s ->
  inv pre s' /\ s_multi s' = s_multi s /\ s_vals s' = s_vals s /\ vty v = lit_ty l.
Proof.
  intros pre l s v s' H I. destruct l; cbn in H;
  try (injection H as <- <-; split; [now apply (inv_same pre s)|auto]).
  destruct c; [|discriminate]. injection H as <- <-. split; [now apply (inv_same pre s)|auto].
Qed.
Lemma literal_inv : forall pre l s v s', import_literal l s = Some (v, s') -> inv pre s ->
  inv pre s' /\ s_multi s' = s_multi s /\ s_vals s' = s_vals s /\ vty v = lit_ty l.
Proof.
  intros pre l s v s' H I. destruct l; try (exact (const_inv pre _ s v s' H I)).
  destruct isbool; [|exact (const_inv pre _ s v s' H I)].
  cbn in H. injection H as <- <-. split; [now apply (inv_same pre s)|auto].
Qed.
Lemma keyb_eq : forall a b, keyb a b = true <-> a = b.
Proof.
  intros [a i] [b j]. unfold keyb. cbn. rewrite andb_true_iff, String.eqb_eq, Nat.eqb_eq.
  split; [intros [-> ->]; reflexivity|intros [= -> ->]; auto].
Qed.
Lemma bind_inv : forall pre n i b s s', bind n i b s = Some s' -> inv pre s ->
  (match b with
   | BLazy _ => False
   | BNone => True
   | BVal v => exists x, find_node g n = Some x /\
       if memb n (s_multi s) then exists ts, n_tys x = Some ts /\ nth_error ts i = Some (vty v)
       else i = 0%nat -> forall t, n_ty x = Some t -> t = vty v
   end) -> (In n pre \/ g_attr g n <> None) ->
  inv pre s' /\ s_multi s' = s_multi s /\
  (forall m j, vget (s_vals s') (m, j) = if keyb (n, i) (m, j) then Some b else vget (s_vals s) (m, j)).
Proof.
  intros pre n i b s s' H I Hb Hn. unfold bind in H.
  destruct (vget (s_vals s) (n, i)) eqn:Ev; [discriminate|].
  set (s1 := set_vals (((n, i), b) :: s_vals s) s) in *.
  assert (I1 : inv pre s1).
  { destruct I. constructor; cbn; auto.
    - intros m j c. destruct (keyb (n, i) (m, j)) eqn:K; [|apply i_val0].
      apply keyb_eq in K. injection K as <- <-. intros [= <-]. exact Hb.
    - intros m j. destruct (keyb (n, i) (m, j)) eqn:K; [|apply i_fresh0].
      apply keyb_eq in K. injection K as <- <-. auto. }
  assert (F : s_vals s' = s_vals s1 /\ s_multi s' = s_multi s1 /\ s_unpack s' = s_unpack s1).
  { destruct (sget (s_hooks s1) n) as [h|]; [|injection H as <-; auto].
    unfold fire in H. destruct b; try discriminate. destruct h; injection H as <-; auto. }
  destruct F as (F1 & F2 & F3). split; [now apply (inv_same pre s1)|]. split; [exact F2|].
  intros m j. rewrite F1. reflexivity.
Qed.
Lemma resolve_inv : forall pre n i s v s', resolve n i s = Some (v, s') -> inv pre s ->
  s' = s /\ exists x, find_node g n = Some x /\
    if memb n (s_multi s) then exists ts, n_tys x = Some ts /\ nth_error ts i = Some (vty v)
    else i = 0%nat -> forall t, n_ty x = Some t -> t = vty v.
Proof.
  intros pre n i s v s' H I. unfold resolve in H.
  destruct (vget (s_vals s) (n, i)) as [[w|l|]|] eqn:Ev; try discriminate.
  - injection H as <- <-. split; [reflexivity|]. exact (i_val _ _ I _ _ _ Ev).
  - destruct (i_val _ _ I _ _ _ Ev).
Qed.

Hypothesis Hnames : NoDup (map n_name g).
Hypothesis Hmeta : metadata_agrees.

Lemma attr_node : forall n o, g_attr g n = Some o ->
  exists x, find_node g n = Some x /\ In x g /\ n_name x = n /\ n_op x = GetAttr o.
Proof.
  intros n o H. unfold g_attr in H. destruct (find_node g n) as [x|] eqn:Ex; [|discriminate].
  destruct (n_op x) eqn:Eo; try discriminate. injection H as <-.
  unfold find_node in Ex. apply find_some in Ex. destruct Ex as [Hx Hn].
  apply String.eqb_eq in Hn. exists x. auto.
Qed.
Lemma found : forall x, In x g -> find_node g (n_name x) = Some x.
Proof. intros x Hx. now apply find_node_in. Qed.
Lemma bind_attr_inv : forall pre n o s s', g_attr g n = Some o -> memb n (s_multi s) = false ->
  bind_attr n o s = Some s' -> inv pre s -> inv pre s' /\ s_multi s' = s_multi s.
Proof.
  intros pre n o s s' Ha Hm H I. unfold bind_attr in H. destruct o as [l|]; [|discriminate].
  destruct (import_literal l s) as [[v s1]|] eqn:El; [|discriminate]. cbn [obind] in H.
  destruct (literal_inv pre _ _ _ _ El I) as (I1 & M1 & _ & T1).
  destruct (attr_node n (Some l) Ha) as (x & Fx & Hx & Nx & Ox).
  apply (bind_inv pre) in H; auto.
  - destruct H as (I2 & M2 & _). split; [exact I2|congruence].
  - exists x. split; [exact Fx|]. rewrite M1, Hm. intros _ t Ht. rewrite T1.
    exact (ma_attr Hmeta x l t Hx Ox Ht).
  - right. congruence.
Qed.

Lemma convert_inv : forall pre v e s v' s', convert_type v e s = (v', s') -> inv pre s ->
  inv pre s' /\ s_multi s' = s_multi s /\ (e = None -> v' = v).
Proof.
  intros pre v e s v' s' H I. unfold convert_type in H.
  destruct (vty v), e as [[]|]; injection H as <- <-;
  (split; [now apply (inv_same pre s)|split; [reflexivity|(discriminate || reflexivity)]]).
Qed.
Lemma elem_inv : forall pre t o a s v s',
  import_elem (g_attr g) t o a s = Some (v, s') -> inv pre s -> inv pre s' /\ s_multi s' = s_multi s.
Proof.
  intros pre t o a s v s' H I. unfold import_elem in H. destruct a as [n|l|l|l]; try discriminate.
  - destruct (memb n (s_multi s)) eqn:Em; [discriminate|].
    match type of H with obind ?c _ = _ => destruct c as [s1|] eqn:E1; [|discriminate] end. cbn [obind] in H.
    assert (A : inv pre s1 /\ s_multi s1 = s_multi s).
    { destruct (g_attr g n) as [obj|] eqn:Ea; [|injection E1 as <-; auto].
      destruct (vget (s_vals s) (n, 0%nat)); [injection E1 as <-; auto|].
      now apply (bind_attr_inv pre n obj). }
    destruct A as [I1 M1].
    destruct (resolve n 0 s1) as [[w s2]|] eqn:E2; [|discriminate]. cbn [obind] in H.
    destruct (resolve_inv pre _ _ _ _ _ E2 I1) as [-> _].
    destruct (node_elem_ok t w); [|discriminate]. injection H as <- <-. auto.
  - destruct (lit_elem_ok t o l); [|discriminate]. cbn [obind guard] in H.
    destruct (const_inv pre _ _ _ _ H I) as (A & B & _). auto.
Qed.
Lemma elems_inv : forall pre t o l s vs s',
  import_elems (g_attr g) t o l s = Some (vs, s') -> inv pre s -> inv pre s' /\ s_multi s' = s_multi s.
Proof.
  intros pre t o l. induction l as [|a l IH]; intros s vs s' H I; cbn in H; [injection H as <- <-; auto|].
  destruct (import_elem (g_attr g) t o a s) as [[v s1]|] eqn:E1; [|discriminate]. cbn [obind] in H.
  destruct (import_elems (g_attr g) t o l s1) as [[ws s2]|] eqn:E2; [|discriminate]. injection H as <- <-.
  destruct (elem_inv pre _ _ _ _ _ _ E1 I) as [I1 M1]. destruct (IH _ _ _ E2 I1) as [I2 M2].
  split; [exact I2|congruence].
Qed.
Lemma list_inv : forall pre e l s v s',
  import_list (g_attr g) e l s = Some (v, s') -> inv pre s -> inv pre s' /\ s_multi s' = s_multi s.
Proof.
  intros pre e l s v s' H I. unfold import_list in H.
  destruct (elem_type e) as [[t o]|]; [|discriminate]. cbn [obind] in H.
  destruct (import_elems (g_attr g) t o l s) as [[ws s2]|] eqn:E2; [|discriminate]. injection H as <- <-.
  destruct (elems_inv pre _ _ _ _ _ _ E2 I) as [I2 M2]. split; [now apply (inv_same pre s2)|exact M2].
Qed.
Lemma arg_inv : forall pre e a s v s',
  import_arg (g_attr g) e a s = Some (v, s') -> inv pre s ->
  inv pre s' /\ s_multi s' = s_multi s /\ (e = None -> forall t, result_type g a = Some t -> vty v = t).
Proof.
  intros pre e a s v s' H I. unfold import_arg in H. destruct a as [n|l|l|l]; try discriminate.
  - destruct (memb n (s_multi s)) eqn:Em; [discriminate|].
    match type of H with obind ?c _ = _ => destruct c as [s1|] eqn:E1; [|discriminate] end. cbn [obind] in H.
    assert (A : inv pre s1 /\ s_multi s1 = s_multi s).
    { destruct (g_attr g n) as [obj|] eqn:Ea; [|injection E1 as <-; auto]. now apply (bind_attr_inv pre n obj). }
    destruct A as [I1 M1].
    destruct (resolve n 0 s1) as [[w s2]|] eqn:E2; [|discriminate]. cbn [obind] in H.
    destruct (resolve_inv pre _ _ _ _ _ E2 I1) as (-> & x & Fx & Tx). rewrite M1, Em in Tx.
    injection H as H. destruct (convert_type w e s1) as [w' s3] eqn:Ec. injection H as <- <-.
    destruct (convert_inv pre _ _ _ _ _ Ec I1) as (I3 & M3 & C3).
    split; [exact I3|]. split; [congruence|]. intros -> t Ht. rewrite (C3 eq_refl). cbn in Ht.
    rewrite Fx in Ht. cbn in Ht. symmetry. now apply Tx.
  - assert (L : forall r, obind (import_literal l s) (fun '(v, s1) => Some (convert_type v e s1)) = Some r ->
      r = (v, s') -> inv pre s' /\ s_multi s' = s_multi s /\
        (e = None -> forall t, result_type g (ALit l) = Some t -> vty v = t)).
    { intros r Hr ->. destruct (import_literal l s) as [[w s1]|] eqn:El; [|discriminate].
      cbn [obind] in Hr. injection Hr as Hr.
      destruct (literal_inv pre _ _ _ _ El I) as (I1 & M1 & _ & T1).
      destruct (convert_inv pre _ _ _ _ _ Hr I1) as (I3 & M3 & C3).
      split; [exact I3|]. split; [congruence|]. intros He t Ht. rewrite (C3 He), T1.
      destruct l; cbn in *; congruence. }
    destruct e as [[]|]; try (exact (L _ H eq_refl)).
    destruct l; try (exact (L _ H eq_refl)); try discriminate;
    cbn in H; injection H as <- <-; (split; [now apply (inv_same pre s)|]; split; [reflexivity|discriminate]).
  - destruct (import_list (g_attr g) e l s) as [[w s1]|] eqn:El; [|discriminate]. cbn [obind] in H.
    destruct (list_inv pre _ _ _ _ _ El I) as [I1 M1]. injection H as H.
    destruct (convert_type w e s1) as [w' s3] eqn:Ec. injection H as <- <-.
    destruct (convert_inv pre _ _ _ _ _ Ec I1) as (I3 & M3 & C3).
    split; [exact I3|]. split; [congruence|]. intros _ t Ht. discriminate.
Qed.
Lemma params_inv : forall pre args kw ps i s vs s',
  import_params (g_attr g) i ps args kw s = Some (vs, s') -> inv pre s ->
  inv pre s' /\ s_multi s' = s_multi s.
Proof.
  intros pre args kw ps. induction ps as [|p r IH]; intros i s vs s' H I; cbn in H; [injection H as <- <-; auto|].
  match type of H with obind ?c _ = _ => destruct c as [[v s1]|] eqn:E1; [|discriminate] end. cbn [obind] in H.
  destruct (import_params (g_attr g) (S i) r args kw s1) as [[ws s2]|] eqn:E2; [|discriminate].
  injection H as <- <-.
  assert (A : inv pre s1 /\ s_multi s1 = s_multi s).
  { destruct (nth_error args i) as [a|]; [destruct (arg_inv pre _ _ _ _ _ E1 I) as (A & B & _); auto|].
    destruct (sget kw (p_name p)) as [a|]; [destruct (arg_inv pre _ _ _ _ _ E1 I) as (A & B & _); auto|].
    destruct (match p_default p with Some d => d | None => DLit LNone end) as [l|l]; cbn in E1.
    - destruct (const_inv pre _ _ _ _ E1 I) as (A & B & _). auto.
    - exact (list_inv pre _ _ _ _ _ E1 I). }
  destruct A as [I1 M1]. destruct (IH _ _ _ _ E2 I1) as [I2 M2]. split; [exact I2|congruence].
Qed.
Lemma named_inv : forall pre kw ps s vs s',
  import_named (g_attr g) ps kw s = Some (vs, s') -> inv pre s -> inv pre s' /\ s_multi s' = s_multi s.
Proof.
  intros pre kw ps. induction ps as [|p r IH]; intros s vs s' H I; cbn in H; [injection H as <- <-; auto|].
  destruct (sget kw (p_name p)) as [a|]; [|discriminate]. cbn [obind] in H.
  destruct (import_arg (g_attr g) (Some (p_type p)) a s) as [[v s1]|] eqn:E1; [|discriminate]. cbn [obind] in H.
  destruct (import_named (g_attr g) r kw s1) as [[ws s2]|] eqn:E2; [|discriminate]. injection H as <- <-.
  destruct (arg_inv pre _ _ _ _ _ E1 I) as (I1 & M1 & _). destruct (IH _ _ _ E2 I1) as [I2 M2].
  split; [exact I2|congruence].
Qed.

(** Binding the results of a node whose types are recorded. *)
Lemma results_inv : forall pre n vs i s s', bind_results (n_name n) i vs s = Some s' ->
  In n g -> inv pre s -> In (n_name n) pre ->
  (forall j v, nth_error vs j = Some v ->
     if memb (n_name n) (s_multi s) then exists ts, n_tys n = Some ts /\ nth_error ts (i + j) = Some (vty v)
     else (i + j)%nat = 0%nat -> forall t, n_ty n = Some t -> t = vty v) ->
  inv pre s' /\ s_multi s' = s_multi s.
Proof.
  intros pre n vs. induction vs as [|v r IH]; intros i s s' H Hn I Hp Ht; cbn in H; [injection H as <-; auto|].
  destruct (bind (n_name n) i (BVal v) s) as [s1|] eqn:E1; [|discriminate]. cbn [obind] in H.
  apply (bind_inv pre) in E1; auto.
  - destruct E1 as (I1 & M1 & _). destruct (IH _ _ _ H Hn I1 Hp) as [I2 M2]; [|split; [exact I2|congruence]].
    intros j w Hw. rewrite M1. specialize (Ht (S j) w Hw). now rewrite Nat.add_succ_r in Ht.
  - exists n. split; [now apply found|]. specialize (Ht 0%nat v eq_refl). now rewrite Nat.add_0_r in Ht.
Qed.
Lemma nth_mkvals : forall ts k j v, nth_error (mkvals k ts) j = Some v -> nth_error ts j = Some (vty v).
Proof.
  intros ts k j v H. rewrite <- (mkvals_tys ts k) at 1. rewrite nth_error_map, H. reflexivity.
Qed.
(** Nodes not imported yet are unbound. *)
Lemma unbound : forall pre n s, inv pre s -> In n g -> ~ In (n_name n) pre ->
  (forall o, n_op n <> GetAttr o) -> forall i, vget (s_vals s) (n_name n, i) = None.
Proof.
  intros pre n s I Hn Hp Ho i. destruct (vget (s_vals s) (n_name n, i)) eqn:E; [|reflexivity].
  destruct (i_fresh _ _ I (n_name n) i) as [F|F]; [congruence|contradiction|].
  exfalso. destruct (g_attr g (n_name n)) as [o|] eqn:Ea; [|congruence].
  destruct (attr_node _ _ Ea) as (x & Fx & Hx & _ & Ox). rewrite (found n Hn) in Fx. injection Fx as <-.
  exact (Ho o Ox).
Qed.
Lemma add_multi : forall pre n s, inv pre s -> In n g -> ~ In (n_name n) pre ->
  (forall o, n_op n <> GetAttr o) -> inv (n_name n :: pre) (set_multi (n_name n :: s_multi s) s).
Proof.
  intros pre n s I Hn Hp Ho. assert (U := unbound pre n s I Hn Hp Ho). destruct I. constructor; cbn; auto.
  - intros m i b Hb. specialize (i_val0 m i b Hb). destruct b; auto.
    destruct (String.eqb_spec m (n_name n)) as [->|]; [rewrite U in Hb; discriminate|exact i_val0].
  - intros m i Hm. destruct (i_fresh0 m i Hm); auto.
  - intros m. destruct (String.eqb_spec m (n_name n)) as [->|]; auto.
Qed.

Lemma call_inv : forall pre n a kw sch0 s s', In n g -> ~ In (n_name n) pre ->
  (forall o, n_op n <> GetAttr o) ->
  (forall sch, pick_schema (g_scalar g) registry sch0 a = Some sch -> emits n sch) ->
  import_call (g_attr g) (g_scalar g) registry n a kw sch0 s = Some s' -> inv pre s ->
  inv (n_name n :: pre) s'.
Proof.
  intros pre n a kw sch0 s s' Hn Hp Ho He H I. unfold import_call in H.
  destruct (String.eqb (s_op sch0) "torch.aten.as_strided"); [discriminate|].
  destruct (pick_schema (g_scalar g) registry sch0 a) as [sch|] eqn:Es; [|discriminate]. cbn [obind] in H.
  specialize (He sch eq_refl).
  destruct (result_types n sch) as [tys|] eqn:Et; [|discriminate]. cbn [obind] in H.
  set (s0 := if (1 <? length tys)%nat then set_multi (n_name n :: s_multi s) s else s) in *.
  assert (I0 : inv (n_name n :: pre) s0).
  { unfold s0. destruct (1 <? length tys)%nat; [now apply add_multi|].
    apply (inv_pre pre); [now right|exact I]. }
  destruct (import_params (g_attr g) 0 (s_params sch) a kw s0) as [[vs s1]|] eqn:Ep; [|discriminate].
  cbn [obind] in H. destruct (params_inv _ _ _ _ _ _ _ _ Ep I0) as [I1 M1].
  assert (Hm : memb (n_name n) (s_multi s1) = (1 <? length tys)%nat).
  { rewrite M1. unfold s0. destruct (1 <? length tys)%nat; cbn; [now rewrite String.eqb_refl|].
    destruct (memb (n_name n) (s_multi s)) eqn:E; [|reflexivity]. destruct Hp. exact (i_multi _ _ I _ E). }
  cbn [emit] in H.
  apply (results_inv (n_name n :: pre)) in H; auto; [tauto| |now left|].
  { now apply (inv_same (n_name n :: pre) s1). }
  intros j v Hj. cbn [s_multi]. rewrite Hm. apply nth_mkvals in Hj.
  unfold result_types in Et. destruct (s_returns sch) as [|[|k]] eqn:Er.
  - injection Et as <-. destruct j; discriminate.
  - destruct (n_ty n) as [t|] eqn:Ent; [|discriminate]. injection Et as <-. cbn.
    intros -> t' [= <-]. cbn in Hj. congruence.
  - destruct (Nat.ltb_spec 1 (length tys)) as [L|L]; [exists tys; auto|].
    exfalso. apply (ma_many Hmeta n sch tys Hn He) in Et; [|lia].
    assert (j < length tys)%nat by (apply nth_error_Some; congruence). lia.
Qed.
Lemma auto_inv : forall pre n sch s s', In n g -> ~ In (n_name n) pre ->
  (forall o, n_op n <> GetAttr o) ->
  import_auto (g_attr g) n sch s = Some s' -> inv pre s -> inv (n_name n :: pre) s'.
Proof.
  intros pre n sch s s' Hn Hp Ho H I. unfold import_auto in H.
  destruct (n_tys n) as [tys|] eqn:Et; [|discriminate]. cbn [obind] in H.
  destruct (Nat.eqb (s_returns sch) 0) eqn:En.
  - destruct tys as [|[] tys]; try discriminate. cbn [obind] in H.
    destruct (import_named (g_attr g) (s_params sch) (n_kwargs n) s) as [[vs s1]|] eqn:E1; [|discriminate].
    cbn [obind emit] in H. destruct (named_inv pre _ _ _ _ _ E1 I) as [I1 M1].
    match type of H with obind (bind _ _ _ ?z) _ = _ => set (s3 := z) in * end.
    assert (I3 : inv (n_name n :: pre) s3).
    { unfold s3. apply (inv_same _ (set_multi (n_name n :: s_multi s1) s1)); auto. now apply add_multi. }
    destruct (bind (n_name n) 0 BNone s3) as [s4|] eqn:E4; [|discriminate]. cbn [obind] in H.
    apply (bind_inv (n_name n :: pre)) in E4; auto; [|now left; left].
    destruct E4 as (I4 & M4 & _).
    apply (results_inv (n_name n :: pre)) in H; auto; [tauto|now left|].
    intros j v Hj. rewrite M4. unfold s3. cbn. rewrite String.eqb_refl. cbn.
    exists (TyNone :: tys). split; [exact Et|]. cbn. now apply nth_mkvals in Hj.
  - cbn [obind] in H.
    destruct (import_named (g_attr g) (s_params sch) (n_kwargs n) s) as [[vs s1]|] eqn:E1; [|discriminate].
    cbn [obind emit] in H. destruct (named_inv pre _ _ _ _ _ E1 I) as [I1 M1].
    match type of H with bind_results _ _ _ ?z = _ => set (s3 := z) in * end.
    assert (I3 : inv (n_name n :: pre) s3).
    { unfold s3. apply (inv_same _ (set_multi (n_name n :: s_multi s1) s1)); auto. now apply add_multi. }
    apply (results_inv (n_name n :: pre)) in H; auto; [tauto|now left|].
    intros j v Hj. unfold s3. cbn. rewrite String.eqb_refl. cbn.
    exists tys. split; [exact Et|]. cbn. now apply nth_mkvals in Hj.
Qed.
Lemma pyidx_nonneg : forall A (l : list A) i, 0 <= i -> pyidx l i = nth_error l (Z.to_nat i).
Proof.
  intros A l i Hi. unfold pyidx. destruct (Z.ltb_spec i 0); [lia|]. destruct (Z.ltb_spec i 0); [lia|]. reflexivity.
Qed.
Lemma pyidx_map : forall A B (f : A -> B) l i, pyidx (map f l) i = option_map f (pyidx l i).
Proof.
  intros A B f l i. unfold pyidx, zlen. rewrite map_length.
  repeat match goal with |- context [if ?b then _ else _] => destruct b end; try reflexivity;
  apply nth_error_map.
Qed.
Lemma getitem_inv : forall pre n s s', In n g -> ~ In (n_name n) pre -> n_op n = Call TGetitem ->
  import_getitem g n s = Some s' -> inv pre s -> inv (n_name n :: pre) s'.
Proof.
  intros pre n s s' Hn Hp Ho H I. unfold import_getitem in H.
  destruct (n_args n) as [|[r| | |] [|[|[| |i| | | | |]| |] [|]]] eqn:Ea; try discriminate.
  assert (Ha : forall o, n_op n <> GetAttr o) by (intros o; congruence).
  assert (Nm : memb (n_name n) (s_multi s) = false).
  { destruct (memb (n_name n) (s_multi s)) eqn:E; [|reflexivity]. destruct Hp. exact (i_multi _ _ I _ E). }
  destruct (memb r (s_multi s)) eqn:Em.
  - destruct (Z.ltb_spec i 0) as [Hi|Hi]; [discriminate|].
    destruct (resolve r (Z.to_nat i) s) as [[v s1]|] eqn:E1; [|discriminate]. cbn [obind] in H.
    destruct (resolve_inv pre _ _ _ _ _ E1 I) as (-> & x & Fx & Tx). rewrite Em in Tx.
    destruct Tx as (ts & Ts & Tv).
    apply (bind_inv (n_name n :: pre)) in H; [tauto| | |now left; left].
    { apply (inv_pre pre); [now right|exact I]. }
    exists n. split; [now apply found|]. rewrite Nm. intros _ t Ht.
    assert (X := ma_item Hmeta n r i x ts t Hn Ho Ea Fx Ts Ht).
    rewrite pyidx_nonneg in X by exact Hi. congruence.
  - match type of H with obind ?c _ = _ => destruct c as [s1|] eqn:E1; [|discriminate] end. cbn [obind] in H.
    assert (A : inv pre s1 /\ s_multi s1 = s_multi s).
    { destruct (sget (s_unpack s) r) eqn:Eu; [injection E1 as <-; auto|].
      destruct (resolve r 0 s) as [[v s2]|] eqn:E2; [|discriminate]. cbn [obind] in E1.
      destruct (resolve_inv pre _ _ _ _ _ E2 I) as (-> & x & Fx & Tx).
      destruct (is_list_ty (vty v)); [|injection E1 as <-; auto].
      rewrite Fx in E1. cbn [obind] in E1. destruct (n_tys x) as [tys|] eqn:Et; [|discriminate].
      cbn [obind emit] in E1. injection E1 as <-. split; [|reflexivity].
      destruct I. constructor; cbn; auto. intros r' vs. destruct (String.eqb_spec r r') as [<-|]; [|apply i_unpack0].
      intros [= <-]. exists x. rewrite mkvals_tys. auto. }
    destruct A as [I1 M1].
    destruct (sget (s_unpack s1) r) as [vs|] eqn:Eu; [|discriminate]. cbn [obind] in H.
    destruct (pyidx vs i) as [v|] eqn:Ei; [|discriminate]. cbn [obind] in H.
    destruct (i_unpack _ _ I1 _ _ Eu) as (x & Fx & Tx).
    apply (bind_inv (n_name n :: pre)) in H; [tauto| | |now left; left].
    { apply (inv_pre pre); [now right|exact I1]. }
    exists n. split; [now apply found|]. rewrite M1, Nm. intros _ t Ht.
    assert (X := ma_item Hmeta n r i x _ t Hn Ho Ea Fx Tx Ht).
    rewrite pyidx_map, Ei in X. cbn in X. congruence.
Qed.
Lemma outs_inv : forall pre l s vs s', import_outs (g_attr g) l s = Some (vs, s') -> inv pre s ->
  inv pre s' /\ forall ts, mapM (result_type g) l = Some ts -> map vty vs = ts.
Proof.
  intros pre l. induction l as [|a l IH]; intros s vs s' H I; cbn in H.
  - injection H as <- <-. split; [exact I|]. now intros ts [= <-].
  - destruct (import_arg (g_attr g) None a s) as [[v s1]|] eqn:E1; [|discriminate]. cbn [obind] in H.
    destruct (import_outs (g_attr g) l s1) as [[ws s2]|] eqn:E2; [|discriminate]. injection H as <- <-.
    destruct (arg_inv pre _ _ _ _ _ E1 I) as (I1 & M1 & T1). destruct (IH _ _ _ E2 I1) as [I2 T2].
    split; [exact I2|]. intros ts Ht. cbn in Ht.
    destruct (result_type g a) as [t|]; [|discriminate]. cbn [obind] in Ht.
    destruct (mapM (result_type g) l) as [us|]; [|discriminate]. injection Ht as <-.
    cbn. now rewrite (T1 eq_refl t eq_refl), (T2 us eq_refl).
Qed.

Definition is_output (n : node) : bool := match n_op n with Output => true | _ => false end.
Lemma node_inv : forall pre n args s args' ret s', In n g -> ~ In (n_name n) pre ->
  import_node (g_attr g) (g_scalar g) registry g false n args s = Some (args', ret, s') -> inv pre s ->
  (is_placeholder n = true -> exists v r, args = v :: r /\ args' = r /\ n_ty n = Some (vty v)) ->
  inv (n_name n :: pre) s' /\ (is_placeholder n = false -> args' = args) /\
  match ret with
  | None => is_output n = false
  | Some vs => is_output n = true /\ forall l ts, output_args n = Some l ->
      mapM (result_type g) l = Some ts -> map vty vs = ts
  end.
Proof.
  intros pre n args s args' ret s' Hn Hp H I Hargs.
  assert (Skip : inv (n_name n :: pre) s) by (apply (inv_pre pre); [now right|exact I]).
  unfold import_node in H. unfold is_placeholder, is_output in *.
  destruct (n_op n) as [|o|[|sch|sch|sch|]| |] eqn:Eo; try discriminate.
  - destruct (Hargs eq_refl) as (v & r & -> & -> & Ht).
    destruct (bind (n_name n) 0 (BVal v) s) as [s1|] eqn:Eb; [|discriminate]. injection H as <- <-.
    split; [|split; [discriminate|reflexivity]].
    apply (bind_inv (n_name n :: pre)) in Eb; [tauto|exact Skip| |now left; left].
    exists n. split; [now apply found|].
    destruct (memb (n_name n) (s_multi s)) eqn:E; [destruct Hp; exact (i_multi _ _ I _ E)|].
    intros _ t. congruence.
  - injection H as <- <- <-. auto.
  - destruct (import_getitem g n s) as [s1|] eqn:E1; [|discriminate]. injection H as <- <- <-.
    split; [now apply (getitem_inv pre n s)|auto].
  - destruct (canonicalize registry n sch) as [[[[a kw] sch']|]|] eqn:Ec; try discriminate; cbn [obind] in H.
    + destruct (import_call (g_attr g) (g_scalar g) registry n a kw sch' s) as [s1|] eqn:E1; [|discriminate].
      injection H as <- <- <-. split; [|auto].
      apply (call_inv pre n a kw sch' s); auto; [intros o; congruence|].
      intros sc Hs. right. exists sch, a, kw, sch'. auto.
    + injection H as <- <- <-. auto.
  - destruct (import_call (g_attr g) (g_scalar g) registry n (n_args n) (n_kwargs n) sch s) as [s1|] eqn:E1; [|discriminate].
    injection H as <- <- <-. split; [|auto].
    apply (call_inv pre n (n_args n) (n_kwargs n) sch s); auto; [intros o; congruence|].
    intros sc Hs. left. exists sch. auto.
  - destruct (import_auto (g_attr g) n sch s) as [s1|] eqn:E1; [|discriminate]. injection H as <- <- <-.
    split; [|auto]. apply (auto_inv pre n sch s); auto. intros o; congruence.
  - destruct (nth_error (n_args n) 0) as [out|] eqn:En; [|discriminate]. cbn [obind] in H.
    match type of H with obind ?c _ = _ => destruct c as [[vs s1]|] eqn:E1; [|discriminate] end.
    injection H as <- <- <-. destruct (outs_inv _ _ _ _ _ E1 Skip) as [I1 T1].
    split; [exact I1|]. split; [auto|]. split; [reflexivity|].
    intros l ts Hl. apply T1 || (intros Hm; apply T1).
    unfold output_args in Hl. rewrite En in Hl. destruct out; congruence.
  - injection H as <- <- <-. auto.
Qed.

Lemma nodes_inv : forall ns pre args s ret s',
  (forall n, In n ns -> In n g) -> NoDup (map n_name ns) ->
  (forall n, In n ns -> ~ In (n_name n) pre) ->
  import_nodes (g_attr g) (g_scalar g) registry g false ns args s = Some (ret, s') -> inv pre s ->
  mapM n_ty (filter is_placeholder ns) = Some (map vty args) ->
  match ret with
  | None => filter is_output ns = []
  | Some vs => exists n, In n (filter is_output ns) /\ forall l ts, output_args n = Some l ->
      mapM (result_type g) l = Some ts -> map vty vs = ts
  end.
Proof.
  intros ns. induction ns as [|n ns IH]; intros pre args s ret s' Hg Nd Hp H I Ha; cbn [import_nodes] in H.
  - injection H as <- <-. reflexivity.
  - destruct (import_node (g_attr g) (g_scalar g) registry g false n args s) as [[[args1 r1] s1]|] eqn:E1; [|discriminate].
    cbn [obind] in H.
    destruct (import_nodes (g_attr g) (g_scalar g) registry g false ns args1 s1) as [[r2 s2]|] eqn:E2; [|discriminate].
    cbn [obind] in H. injection H as <- <-. cbn in Nd. inversion Nd as [|? ? Hnn Nd']; subst.
    assert (Hargs : is_placeholder n = true -> exists v r, args = v :: r /\ args1 = r /\ n_ty n = Some (vty v)).
    { intros Ep. cbn [filter] in Ha. rewrite Ep in Ha. cbn [mapM] in Ha.
      destruct (n_ty n) as [t|]; [|discriminate]. cbn [obind] in Ha.
      destruct (mapM n_ty (filter is_placeholder ns)) as [us|]; [|discriminate]. cbn [obind] in Ha.
      destruct args as [|v r]; [discriminate|]. injection Ha as -> ->. exists v, r. split; [reflexivity|].
      split; [|reflexivity]. unfold import_node in E1. unfold is_placeholder in Ep.
      destruct (n_op n); try discriminate. destruct (bind (n_name n) 0 (BVal v) s); [|discriminate].
      injection E1; intros; subst; reflexivity. }
    destruct (node_inv pre n args s args1 r1 s1 (Hg n (or_introl eq_refl)) (Hp n (or_introl eq_refl)) E1 I Hargs)
      as (I1 & A1 & R1).
    assert (Ha' : mapM n_ty (filter is_placeholder ns) = Some (map vty args1)).
    { cbn [filter] in Ha. destruct (is_placeholder n) eqn:Ep; [|now rewrite (A1 eq_refl)].
      destruct (Hargs eq_refl) as (v & r & -> & -> & Ht). cbn [mapM] in Ha. rewrite Ht in Ha. cbn [obind] in Ha.
      destruct (mapM n_ty (filter is_placeholder ns)) as [us|]; [|discriminate]. cbn in Ha. congruence. }
    assert (X := IH (n_name n :: pre) args1 s1 r2 s2 (fun m Hm => Hg m (or_intror Hm)) Nd').
    assert (Hp' : forall m, In m ns -> ~ In (n_name m) (n_name n :: pre)).
    { intros m Hm [E|E]; [apply Hnn; rewrite E; now apply in_map|exact (Hp m (or_intror Hm) E)]. }
    specialize (X Hp' E2 I1 Ha'). cbn [filter].
    destruct r2 as [vs|].
    + destruct X as (m & Hm & T). exists m. split; [|exact T]. destruct (is_output n); [now right|exact Hm].
    + rewrite X. destruct r1 as [vs|]; [|now rewrite R1].
      destruct R1 as [R1 T]. rewrite R1. exists n. split; [now left|exact T].
Qed.
End Types.

(** What _graph_to_function_meta collects. *)
Lemma function_type_spec : forall g ns acc ins outs,
  foldM (fun acc n =>
    match n_op n with
    | Placeholder => do t <- n_ty n; Some (fst acc ++ [t], snd acc)
    | Output => do l <- output_args n; do ts <- mapM (result_type g) l; Some (fst acc, snd acc ++ ts)
    | _ => Some acc
    end) ns acc = Some (ins, outs) <->
  exists ts us, mapM n_ty (filter is_placeholder ns) = Some ts /\
    mapM (fun n => do l <- output_args n; mapM (result_type g) l) (filter is_output ns) = Some us /\
    ins = fst acc ++ ts /\ outs = snd acc ++ concat us.
Proof.
  intros g ns. induction ns as [|n ns IH]; intros acc ins outs; cbn [foldM filter].
  - split.
    + intros [= ->]. exists [], []. cbn. rewrite !app_nil_r. auto.
    + intros (ts & us & [= <-] & [= <-] & -> & ->). cbn. rewrite !app_nil_r. now destruct acc.
  - assert (Skip : is_placeholder n = false -> is_output n = false ->
      (forall acc, (match n_op n with
        | Placeholder => do t <- n_ty n; Some (fst acc ++ [t], snd acc)
        | Output => do l <- output_args n; do ts <- mapM (result_type g) l; Some (fst acc, snd acc ++ ts)
        | _ => Some acc end) = Some acc)).
    { unfold is_placeholder, is_output. destruct (n_op n); try discriminate; reflexivity. }
    destruct (is_placeholder n) eqn:Ep; [|destruct (is_output n) eqn:Eo].
    + assert (E : n_op n = Placeholder) by (unfold is_placeholder in Ep; destruct (n_op n); congruence).
      assert (Eo : is_output n = false) by (unfold is_output; now rewrite E).
      rewrite E, Eo. cbn [mapM]. destruct (n_ty n) as [t|]; cbn [obind].
      * rewrite IH. cbn [fst snd]. split.
        -- intros (ts & us & -> & -> & -> & ->). exists (t :: ts), us. rewrite <- app_assoc. auto.
        -- intros (ts & us & H & Hu & -> & ->). destruct (mapM n_ty (filter is_placeholder ns)) as [vs|]; [|discriminate].
           cbn in H. injection H as <-. exists vs, us. rewrite <- app_assoc. auto.
      * split; [discriminate|]. intros (ts & us & H & _). discriminate.
    + assert (E : n_op n = Output) by (unfold is_output in Eo; destruct (n_op n); congruence).
      rewrite E. cbn [mapM]. destruct (output_args n) as [l|]; cbn [obind].
      * destruct (mapM (result_type g) l) as [vs|]; cbn [obind].
        -- rewrite IH. cbn [fst snd]. split.
           ++ intros (ts & us & Ht & -> & -> & ->). exists ts, (vs :: us). cbn [concat]. rewrite <- app_assoc. auto.
           ++ intros (ts & us & Ht & H & -> & ->).
              match type of H with obind ?c _ = _ => destruct c as [ws|]; [|discriminate] end.
              cbn in H. injection H as <-. exists ts, ws. cbn [concat]. rewrite <- app_assoc. auto.
        -- split; [discriminate|]. intros (ts & us & _ & H & _). discriminate.
      * split; [discriminate|]. intros (ts & us & _ & H & _). discriminate.
    + rewrite (Skip eq_refl eq_refl). cbn [obind]. apply IH.
Qed.

(** C90. The declared operand types are those of the placeholders, in order. *)
Theorem C90_declared_operands : forall g ins outs, function_type g = Some (ins, outs) ->
  mapM n_ty (placeholders g) = Some ins.
Proof.
  intros g ins outs H. apply function_type_spec in H. destruct H as (ts & us & H & _ & -> & _). exact H.
Qed.
(** A type is declared exactly when every placeholder and every returned value has one. *)
Theorem C90_declared_exactly_when_typed : forall g,
  (exists t, function_type g = Some t) <->
  Forall (fun n => (n_op n = Placeholder -> n_ty n <> None) /\
                   (n_op n = Output -> exists l, output_args n = Some l /\
                      Forall (fun a => result_type g a <> None) l)) g.
Proof.
  intros g. rewrite Forall_forall. split.
  - intros [[ins outs] H] n Hn. apply function_type_spec in H. destruct H as (ts & us & Hp & Ho & _).
    split.
    + intros E. assert (In n (filter is_placeholder g)) by (apply filter_In; unfold is_placeholder; now rewrite E).
      intros C. assert (N := proj2 (mapM_none _ _ n_ty (filter is_placeholder g))). rewrite N in Hp; [discriminate|].
      exists n. auto.
    + intros E. assert (I : In n (filter is_output g)) by (apply filter_In; unfold is_output; now rewrite E).
      assert (N := proj2 (mapM_none _ _ (fun n => do l <- output_args n; mapM (result_type g) l) (filter is_output g))).
      destruct (output_args n) as [l|] eqn:El.
      * exists l. split; [reflexivity|]. rewrite Forall_forall. intros a Ha C.
        rewrite N in Ho; [discriminate|]. exists n. split; [exact I|]. rewrite El. cbn [obind].
        apply mapM_none. exists a. auto.
      * rewrite N in Ho; [discriminate|]. exists n. split; [exact I|]. now rewrite El.
  - intros H.
    destruct (mapM n_ty (filter is_placeholder g)) as [ts|] eqn:Ep.
    + destruct (mapM (fun n => do l <- output_args n; mapM (result_type g) l) (filter is_output g)) as [us|] eqn:Eo.
      * exists (ts, concat us). apply function_type_spec. exists ts, us. auto.
      * exfalso. apply mapM_none in Eo. destruct Eo as (n & Hn & E). apply filter_In in Hn. destruct Hn as [Hn Ho].
        assert (On : n_op n = Output) by (unfold is_output in Ho; destruct (n_op n); congruence).
        destruct (proj2 (H n Hn) On) as (l & El & Fl). rewrite El in E. cbn [obind] in E.
        apply mapM_none in E. destruct E as (a & Ha & Ea). rewrite Forall_forall in Fl. exact (Fl a Ha Ea).
    + exfalso. apply mapM_none in Ep. destruct Ep as (n & Hn & E). apply filter_In in Hn. destruct Hn as [Hn Ho].
      assert (On : n_op n = Placeholder) by (unfold is_placeholder in Ho; destruct (n_op n); congruence).
      exact (proj1 (H n Hn) On E).
Qed.

(** C90. The values returned by an imported function have exactly its declared result
    types, so the function verifies. *)
Theorem C90_returned_values_have_the_declared_types : forall registry g ins outs ops vs,
  NoDup (map n_name g) -> metadata_agrees registry g ->
  (exists n, filter is_output g = [n]) ->
  function_type g = Some (ins, outs) ->
  import_stateless registry g = Some (ops, Some vs) ->
  map vty vs = outs.
Proof.
  intros registry g ins outs ops vs Nd Hm [n Ho] Hf Hi.
  apply function_type_spec in Hf. destruct Hf as (ts & us & Hp & Hu & _ & ->). cbn [snd app].
  unfold import_stateless in Hi. change (placeholders g) with (filter is_placeholder g) in Hi.
  rewrite Hp in Hi. cbn [obind] in Hi.
  match type of Hi with obind ?c _ = _ => destruct c as [[r s]|] eqn:E; [|discriminate] end.
  cbn [obind] in Hi. injection Hi as <- ->.
  apply (nodes_inv registry g Nd Hm g []) in E; auto.
  - destruct E as (m & Hin & T). rewrite Ho in Hin, Hu. destruct Hin as [<-|[]].
    cbn [mapM] in Hu. destruct (output_args n) as [l|]; [|discriminate]. cbn [obind] in Hu.
    destruct (mapM (result_type g) l) as [os|] eqn:El; [|discriminate]. cbn in Hu. injection Hu as <-.
    cbn. rewrite app_nil_r. exact (T l os eq_refl El).
  - constructor; cbn; try discriminate. intros n0 i H. now destruct H.
  - now rewrite mkvals_tys.
Qed.

Example C90_nonvacuous : exists ops vs,
  NoDup (map n_name ex_graph) /\ metadata_agrees ex_reg ex_graph /\
  (exists n, filter is_output ex_graph = [n]) /\
  function_type ex_graph = Some ([TyVTensor; TyInt], [TyVTensor; TyVTensor; TyInt]) /\
  import_stateless ex_reg ex_graph = Some (ops, Some vs) /\
  map vid vs = [17; 8; 1]%nat.
Proof.
  eexists _, _. split; [|split; [|split; [|split; [|split]]]].
  - cbn. repeat (constructor; [cbn; intuition discriminate|]). constructor.
  - constructor.
    + intros n l t Hn Ho Ht. cbn in Hn; repeat destruct Hn as [<-|Hn]; try contradiction; try discriminate.
      cbn in *. injection Ho as <-. now injection Ht as <-.
    + intros n r i x ts t Hn Ho Ha Hf Ht Hy.
      cbn in Hn; repeat destruct Hn as [<-|Hn]; try contradiction; try discriminate;
      cbn in Ha; injection Ha as <- <-; vm_compute in Hf; injection Hf as <-; cbn in Ht; injection Ht as <-;
      cbn in Hy; injection Hy as <-; reflexivity.
    + intros n sch ts Hn He Hr Ht. cbn in Hn; repeat destruct Hn as [<-|Hn]; try contradiction; try discriminate;
      cbn in Ht; injection Ht as <-; cbn; lia || idtac.
  - eexists. reflexivity.
  - reflexivity.
  - vm_compute. reflexivity.
  - vm_compute. reflexivity.
Qed.

(** The type of a returned value: that of the literal, or what tracing recorded for the node. *)
Inductive has_type (g : graph) : arg -> ty -> Prop :=
| t_none : has_type g (ALit LNone) TyNone
| t_tensor i b : has_type g (ALit (LTensor i b)) TyVTensor
| t_bool b : has_type g (ALit (LBool b)) TyBool
| t_int z : has_type g (ALit (LInt z)) TyInt
| t_float z : has_type g (ALit (LFloat z)) TyFloat
| t_str s : has_type g (ALit (LStr s)) TyStr
| t_node x n t : find_node g x = Some n -> n_ty n = Some t -> has_type g (ANode x) t.
Theorem C90_types_of_returned_values : forall g a t, result_type g a = Some t <-> has_type g a t.
Proof.
  intros g a t. split.
  - destruct a as [n|[]|l|l]; cbn; try discriminate; try (intros [= <-]; constructor).
    destruct (find_node g n) as [m|] eqn:E; [|discriminate]. cbn. intros H. now apply t_node with m.
  - intros H. destruct H; cbn; auto. now rewrite H.
Qed.
(** The returned values of an output node: those of its list or tuple, or the only one. *)
Theorem C90_returned_values : forall n l, output_args n = Some l <->
  exists a r, n_args n = a :: r /\ (a = AList l \/ a = ATuple l \/ l = [a] /\ (forall k, a <> AList k /\ a <> ATuple k)).
Proof.
  intros n l. unfold output_args. destruct (n_args n) as [|a r]; cbn [nth_error].
  - split; [discriminate|intros (a & r & [= ] & _)].
  - split.
    + intros H. exists a, r. split; auto. destruct a; injection H as <-; auto; right; right; split; auto; split; discriminate.
    + intros (b & q & [= <- <-] & [->|[->|[-> N]]]); auto. destruct a as [?|?|k|k]; auto; destruct (N k); congruence.
Qed.
Print Assumptions C90_types_of_returned_values.
Print Assumptions C90_returned_values.
Print Assumptions C90_declared_operands.
Print Assumptions C90_declared_exactly_when_typed.
Print Assumptions C90_returned_values_have_the_declared_types.
