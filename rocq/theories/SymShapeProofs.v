From Coq Require Import String ZArith List Lia Bool Permutation Sorting.Sorted.
From Verif Require Import Prelude SymShapeModel SymShapeSpec.
Import ListNotations.
Open Scope Z_scope.

Section SInd.
Variable P : sexpr -> Prop.
Hypothesis Hs : forall s, P (ESym s).
Hypothesis Hi : forall z, P (EInt z).
Hypothesis Ha : forall l, Forall P l -> P (EAdd l).
Hypothesis Hm : forall l, Forall P l -> P (EMul l).
Hypothesis Hp : forall a b, P a -> P b -> P (EPow a b).
Hypothesis Hmod : forall a b, P a -> P b -> P (EMod a b).
Hypothesis Ho : forall k l, Forall P l -> P (EOther k l).
Fixpoint sexpr_ind' (e : sexpr) : P e :=
  let go := fix go (l : list sexpr) : Forall P l :=
      match l with [] => Forall_nil _ | x :: r => Forall_cons x (sexpr_ind' x) (go r) end in
  match e with
  | ESym s => Hs s | EInt z => Hi z
  | EAdd l => Ha l (go l) | EMul l => Hm l (go l)
  | EPow a b => Hp a b (sexpr_ind' a) (sexpr_ind' b)
  | EMod a b => Hmod a b (sexpr_ind' a) (sexpr_ind' b)
  | EOther k l => Ho k l (go l)
  end.
End SInd.

(** Unfolding lemmas for the nested loops. *)
Fixpoint aff_fold (op : aexpr -> aexpr -> aexpr) (m : symmap) (l : list sexpr) (acc : aexpr)
  : option aexpr :=
  match l with
  | [] => Some acc
  | x :: r => match to_affine m x with Some a => aff_fold op m r (op acc a) | None => None end
  end.
Lemma to_affine_add : forall m l, to_affine m (EAdd l) = aff_fold AAdd m l (AConst 0).
Proof.
  intros. simpl. generalize (AConst 0). induction l; simpl; intros; auto.
  destruct (to_affine m a); auto.
Qed.
Lemma to_affine_mul : forall m l, to_affine m (EMul l) = aff_fold AMul m l (AConst 1).
Proof.
  intros. simpl. generalize (AConst 1). induction l; simpl; intros; auto.
  destruct (to_affine m a); auto.
Qed.

Fixpoint sym_fold (f : Z -> Z -> Z) (z : Z) (env : string -> Z) (l : list sexpr) : option Z :=
  match l with
  | [] => Some z
  | x :: r => match eval_sympy env x, sym_fold f z env r with
              | Some a, Some b => Some (f a b) | _, _ => None end
  end.
Lemma eval_sympy_add : forall env l, eval_sympy env (EAdd l) = sym_fold Z.add 0 env l.
Proof. intros. simpl. induction l; simpl; auto. rewrite IHl. auto. Qed.
Lemma eval_sympy_mul : forall env l, eval_sympy env (EMul l) = sym_fold Z.mul 1 env l.
Proof. intros. simpl. induction l; simpl; auto. rewrite IHl. auto. Qed.

(** The map and operands agree with the environment. *)
Definition agrees (m : symmap) (syms : list Z) (env : string -> Z) : Prop :=
  forall s i, map_get m s = Some i -> nth_error syms i = Some (env s).

Lemma pow_loop_eval : forall syms n acc a x y,
  eval_affine syms a = Some x -> eval_affine syms acc = Some y ->
  eval_affine syms (pow_loop n acc a) = Some (y * x ^ Z.of_nat n).
Proof.
  induction n; intros acc a x y Hx Hy; cbn [pow_loop].
  - rewrite Hy. f_equal. change (Z.of_nat 0) with 0. rewrite Z.pow_0_r. lia.
  - rewrite (IHn _ _ x (y * x)); auto.
    + f_equal. rewrite Nat2Z.inj_succ, Z.pow_succ_r by lia. lia.
    + cbn [eval_affine]. now rewrite Hy, Hx.
Qed.
Lemma pow_loop_eval_some : forall syms n acc a v,
  eval_affine syms (pow_loop n acc a) = Some v ->
  (exists y, eval_affine syms acc = Some y) /\ (n <> O -> exists x, eval_affine syms a = Some x).
Proof.
  induction n; intros acc a v H; cbn [pow_loop] in H.
  - split; [eauto|congruence].
  - apply IHn in H. destruct H as [[y Hy] _]. cbn [eval_affine] in Hy.
    destruct (eval_affine syms acc); [|discriminate].
    destruct (eval_affine syms a); [|discriminate]. eauto.
Qed.

(** Translation is sound: a defined affine value is the sympy value. *)
Lemma to_affine_sound : forall m syms env, agrees m syms env ->
  forall e a v, to_affine m e = Some a -> eval_affine syms a = Some v ->
  eval_sympy env e = Some v.
Proof.
  intros m syms env Hag e. induction e using sexpr_ind'; intros af v Ht He.
  - simpl in Ht. destruct (map_get m s) eqn:E; simpl in Ht; [|discriminate].
    inversion Ht; subst. simpl in *. rewrite (Hag _ _ E) in He. auto.
  - simpl in Ht. inversion Ht; subst. auto.
  - rewrite to_affine_add in Ht. rewrite eval_sympy_add.
    assert (HH : forall l acc af v, Forall (fun e => forall a v, to_affine m e = Some a ->
        eval_affine syms a = Some v -> eval_sympy env e = Some v) l ->
        aff_fold AAdd m l acc = Some af -> eval_affine syms af = Some v ->
        exists y w, eval_affine syms acc = Some y /\ sym_fold Z.add 0 env l = Some w /\ v = y + w).
    { clear. induction l as [|x r IH]; intros acc af v HF H1 H2; simpl in *.
      - inversion H1; subst. exists v, 0. repeat split; auto. lia.
      - inversion HF; subst. destruct (to_affine m x) eqn:Ex; [|discriminate].
        destruct (IH _ _ _ H4 H1 H2) as (y & w & Hy & Hw & ->).
        cbn [eval_affine] in Hy. destruct (eval_affine syms acc) eqn:Ea; [|discriminate].
        destruct (eval_affine syms a) eqn:Eb; [|discriminate]. inversion Hy; subst.
        rewrite (H3 _ _ eq_refl Eb), Hw. do 2 eexists. repeat split; auto. lia. }
    destruct (HH _ _ _ _ H Ht He) as (y & w & Hy & Hw & ->).
    simpl in Hy. inversion Hy; subst. rewrite Hw. reflexivity.
  - rewrite to_affine_mul in Ht. rewrite eval_sympy_mul.
    assert (HH : forall l acc af v, Forall (fun e => forall a v, to_affine m e = Some a ->
        eval_affine syms a = Some v -> eval_sympy env e = Some v) l ->
        aff_fold AMul m l acc = Some af -> eval_affine syms af = Some v ->
        exists y w, eval_affine syms acc = Some y /\ sym_fold Z.mul 1 env l = Some w /\ v = y * w).
    { clear. induction l as [|x r IH]; intros acc af v HF H1 H2; simpl in *.
      - inversion H1; subst. exists v, 1. repeat split; auto. lia.
      - inversion HF; subst. destruct (to_affine m x) eqn:Ex; [|discriminate].
        destruct (IH _ _ _ H4 H1 H2) as (y & w & Hy & Hw & ->).
        cbn [eval_affine] in Hy. destruct (eval_affine syms acc) eqn:Ea; [|discriminate].
        destruct (eval_affine syms a) eqn:Eb; [|discriminate]. inversion Hy; subst.
        rewrite (H3 _ _ eq_refl Eb), Hw. do 2 eexists. repeat split; auto. lia. }
    destruct (HH _ _ _ _ H Ht He) as (y & w & Hy & Hw & ->).
    simpl in Hy. inversion Hy; subst. rewrite Hw. f_equal. lia.
  - cbn [to_affine] in Ht. destruct e2; try discriminate.
    destruct (0 <? z) eqn:Ez; [|discriminate].
    destruct (to_affine m e1) eqn:E1; [|discriminate]. inversion Ht; subst.
    destruct (pow_loop_eval_some _ _ _ _ _ He) as [_ Hx].
    destruct Hx as [x Hx]; [lia|].
    rewrite (pow_loop_eval syms _ (AConst 1) _ x 1 Hx eq_refl) in He. inversion He; subst.
    cbn [eval_sympy]. rewrite (IHe1 _ _ eq_refl Hx).
    destruct (0 <=? z) eqn:E0; [|lia]. f_equal. rewrite Z2Nat.id by lia. lia.
  - cbn [to_affine] in Ht. destruct (to_affine m e1) eqn:E1; [|discriminate].
    destruct (to_affine m e2) eqn:E2; [|discriminate]. inversion Ht; subst.
    cbn [eval_affine] in He. destruct (eval_affine syms a) eqn:Ea; [|discriminate].
    destruct (eval_affine syms a0) eqn:Eb; [|discriminate].
    destruct (0 <? z0) eqn:Ez; [|discriminate]. inversion He; subst.
    cbn [eval_sympy]. rewrite (IHe1 _ _ eq_refl Ea), (IHe2 _ _ eq_refl Eb).
    destruct (z0 =? 0) eqn:E0; [lia|reflexivity].
  - discriminate.
Qed.

(** ... and defined whenever all modulos have positive divisors. *)
Lemma to_affine_defined : forall m syms env, agrees m syms env ->
  forall e a, to_affine m e = Some a -> mods_positive env e ->
  exists v, eval_affine syms a = Some v /\ eval_sympy env e = Some v.
Proof.
  intros m syms env Hag e a Ht Hmp.
  assert (exists v, eval_affine syms a = Some v) as [v Hv].
  { revert a Ht Hmp. induction e using sexpr_ind'; intros af Ht Hmp.
    - simpl in Ht. destruct (map_get m s) eqn:E; simpl in Ht; [|discriminate].
      inversion Ht; subst. simpl. rewrite (Hag _ _ E). eauto.
    - simpl in Ht. inversion Ht; subst. simpl. eauto.
    - rewrite to_affine_add in Ht. inversion Hmp; subst.
      assert (HH : forall l acc af y, Forall (fun e => forall a, to_affine m e = Some a ->
          mods_positive env e -> exists v, eval_affine syms a = Some v) l ->
          Forall (mods_positive env) l ->
          aff_fold AAdd m l acc = Some af -> eval_affine syms acc = Some y ->
          exists v, eval_affine syms af = Some v).
      { clear. induction l as [|x r IH]; intros acc af y HF HM H1 H2; simpl in *.
        - inversion H1; subst. eauto.
        - inversion HF; inversion HM; subst. destruct (to_affine m x) eqn:Ex; [|discriminate].
          destruct (H3 _ eq_refl H7) as [w Hw].
          eapply IH; eauto. cbn [eval_affine]. rewrite H2, Hw. reflexivity. }
      eapply HH; eauto. reflexivity.
    - rewrite to_affine_mul in Ht. inversion Hmp; subst.
      assert (HH : forall l acc af y, Forall (fun e => forall a, to_affine m e = Some a ->
          mods_positive env e -> exists v, eval_affine syms a = Some v) l ->
          Forall (mods_positive env) l ->
          aff_fold AMul m l acc = Some af -> eval_affine syms acc = Some y ->
          exists v, eval_affine syms af = Some v).
      { clear. induction l as [|x r IH]; intros acc af y HF HM H1 H2; simpl in *.
        - inversion H1; subst. eauto.
        - inversion HF; inversion HM; subst. destruct (to_affine m x) eqn:Ex; [|discriminate].
          destruct (H3 _ eq_refl H7) as [w Hw].
          eapply IH; eauto. cbn [eval_affine]. rewrite H2, Hw. reflexivity. }
      eapply HH; eauto. reflexivity.
    - cbn [to_affine] in Ht. destruct e2; try discriminate.
      destruct (0 <? z) eqn:Ez; [|discriminate].
      destruct (to_affine m e1) eqn:E1; [|discriminate]. inversion Ht; subst.
      inversion Hmp; subst. destruct (IHe1 _ eq_refl H0) as [x Hx].
      rewrite (pow_loop_eval syms _ (AConst 1) _ x 1 Hx eq_refl). eauto.
    - cbn [to_affine] in Ht. destruct (to_affine m e1) eqn:E1; [|discriminate].
      destruct (to_affine m e2) eqn:E2; [|discriminate]. inversion Ht; subst.
      inversion Hmp; subst. destruct (IHe1 _ eq_refl H1) as [x Hx].
      destruct (IHe2 _ eq_refl H2) as [y' Hy'].
      pose proof (to_affine_sound m syms env Hag _ _ _ E2 Hy') as E.
      rewrite E in H3. inversion H3; subst. cbn [eval_affine]. rewrite Hx, Hy'.
      destruct (0 <? y) eqn:Ey; [eauto|lia].
    - discriminate. }
  exists v. split; auto. eapply to_affine_sound; eauto.
Qed.

(** Exactly the supported fragment is translated. *)
Lemma to_affine_supported : forall m e,
  (exists a, to_affine m e = Some a) <-> supported (fun s => map_get m s <> None) e.
Proof.
  intros m e. induction e using sexpr_ind'.
  - simpl. split.
    + intros [a H]. constructor. destruct (map_get m s); simpl in H; congruence.
    + intros H. inversion H; subst. destruct (map_get m s); simpl; eauto. congruence.
  - simpl. split; [constructor|eauto].
  - rewrite to_affine_add.
    assert (HH : forall acc, (exists a, aff_fold AAdd m l acc = Some a) <->
              Forall (supported (fun s => map_get m s <> None)) l).
    { induction H as [|x r Hx Hr IH]; intros acc; simpl; split.
      - constructor.
      - eauto.
      - intros [a Ha]. destruct (to_affine m x) eqn:Ex; [|discriminate].
        constructor; [apply Hx; eauto|]. eapply IH; eauto.
      - intros HF. inversion HF; subst. apply Hx in H1. destruct H1 as [a ->].
        now apply IH. }
    rewrite HH. split; [constructor; auto|intros K; now inversion K].
  - rewrite to_affine_mul.
    assert (HH : forall acc, (exists a, aff_fold AMul m l acc = Some a) <->
              Forall (supported (fun s => map_get m s <> None)) l).
    { induction H as [|x r Hx Hr IH]; intros acc; simpl; split.
      - constructor.
      - eauto.
      - intros [a Ha]. destruct (to_affine m x) eqn:Ex; [|discriminate].
        constructor; [apply Hx; eauto|]. eapply IH; eauto.
      - intros HF. inversion HF; subst. apply Hx in H1. destruct H1 as [a ->].
        now apply IH. }
    rewrite HH. split; [constructor; auto|intros K; now inversion K].
  - cbn [to_affine]. split.
    + intros [a H]. destruct e2; try discriminate. destruct (0 <? z) eqn:Ez; [|discriminate].
      destruct (to_affine m e1) eqn:E1; [|discriminate]. constructor; [apply IHe1; eauto|lia].
    + intros H. inversion H; subst. apply IHe1 in H2. destruct H2 as [a ->].
      destruct (0 <? k) eqn:Ek; [eauto|lia].
  - cbn [to_affine]. split.
    + intros [a H]. destruct (to_affine m e1) eqn:E1; [|discriminate].
      destruct (to_affine m e2) eqn:E2; [|discriminate].
      constructor; [apply IHe1|apply IHe2]; eauto.
    + intros H. inversion H; subst. apply IHe1 in H2. apply IHe2 in H3.
      destruct H2 as [? ->], H3 as [? ->]. eauto.
  - simpl. split; [intros [? ?]; discriminate|intros H1; inversion H1].
Qed.

(** ** Sorting names *)
Lemma insert_name_perm : forall s l, Permutation (insert_name s l) (s :: l).
Proof.
  induction l; simpl; auto. destruct (String.leb s a); auto.
  rewrite IHl. apply perm_swap.
Qed.
Lemma sort_names_perm : forall l, Permutation (sort_names l) l.
Proof. induction l; simpl; auto. rewrite insert_name_perm. now constructor. Qed.

Lemma leb_total : forall a b, String.leb a b = true \/ String.leb b a = true.
Proof.
  intros a b. unfold String.leb. rewrite (String.compare_antisym b a).
  destruct (String.compare a b); simpl; auto.
Qed.

Lemma insert_name_sorted : forall s l, Sorted (fun a b => String.leb a b = true) l ->
  Sorted (fun a b => String.leb a b = true) (insert_name s l).
Proof.
  induction l as [|x r IH]; simpl; intros H; [repeat constructor|].
  destruct (String.leb s x) eqn:E.
  - constructor; auto.
  - inversion H; subst. constructor; auto.
    assert (Hx : String.leb x s = true) by (destruct (leb_total s x); congruence).
    destruct r as [|y r]; simpl; [constructor; auto|].
    destruct (String.leb s y); constructor; auto. now inversion H3.
Qed.
Lemma sort_names_sorted : forall l, Sorted (fun a b => String.leb a b = true) (sort_names l).
Proof. induction l; simpl; [constructor|now apply insert_name_sorted]. Qed.

(** ** bind_symbolic_shape *)
Lemma map_get_enumerate : forall l k s i,
  map_get (combine l (seq k (length l))) s = Some i ->
  exists j, i = (k + j)%nat /\ nth_error l j = Some s.
Proof.
  induction l as [|x r IH]; simpl; intros k s i H; [discriminate|].
  destruct (String.eqb x s) eqn:E.
  - apply String.eqb_eq in E. inversion H; subst. exists O. split; [lia|reflexivity].
  - apply IH in H. destruct H as (j & -> & Hj). exists (S j). split; [lia|auto].
Qed.

Lemma map_get_none : forall l k s, map_get (combine l (seq k (length l))) s = None <-> ~ In s l.
Proof.
  induction l as [|x r IH]; simpl; intros k s; [tauto|].
  destruct (String.eqb x s) eqn:E.
  - apply String.eqb_eq in E. split; [discriminate|tauto].
  - apply String.eqb_neq in E. rewrite IH. tauto.
Qed.

Lemma fst_enumerate : forall A (l : list A), map fst (enumerate l) = l.
Proof.
  unfold enumerate. intros A l. generalize O. induction l; simpl; intros; auto.
  f_equal. auto.
Qed.

Lemma mapM_filter_id : forall bound l r,
  mapM (fun s => if existsb (String.eqb s) bound then Some s else None) l = Some r ->
  r = l /\ forall s, In s l -> In s bound.
Proof.
  induction l as [|x l IH]; simpl; intros r H.
  - inversion H. split; auto. intros s [].
  - destruct (existsb (String.eqb x) bound) eqn:E; simpl in H; [|discriminate].
    destruct (mapM _ l) eqn:El in H; simpl in H; [|discriminate].
    inversion H; subst. destruct (IH _ El) as [-> Hin]. split; auto.
    intros s [<-|Hs]; auto. apply existsb_exists in E. destruct E as (y & Hy & Ey).
    apply String.eqb_eq in Ey. now subst.
Qed.

Lemma bind_spec : forall bound dims exprs operands,
  bind_symbolic_shape bound dims = Some (exprs, operands) ->
  (forall env, Forall2 (fun d a =>
     (forall v, eval_affine (map env operands) a = Some v -> dim_value env d = Some v) /\
     (mods_positive env (dim_expr d) ->
        exists v, eval_affine (map env operands) a = Some v /\ dim_value env d = Some v))
     dims exprs) /\
  NoDup operands /\ Sorted (fun a b => String.leb a b = true) operands /\
  (forall s, In s operands <-> exists d, In d dims /\ In s (dim_syms d)) /\
  (forall s, In s operands -> In s bound).
Proof.
  unfold bind_symbolic_shape. intros bound dims exprs operands H.
  set (symbols := sort_names _) in *.
  destruct (mapM _ dims) as [ex|] eqn:E1 in H; simpl in H; [|discriminate].
  destruct (mapM _ (map fst _)) as [op|] eqn:E2 in H; simpl in H; [|discriminate].
  inversion H; subst; clear H. rewrite fst_enumerate in E2.
  apply mapM_filter_id in E2. destruct E2 as [-> Hb].
  assert (P : Permutation symbols (nodup string_dec (flat_map dim_syms dims)))
    by apply sort_names_perm.
  split; [|split; [|split; [|split]]].
  - intros env. apply mapM_Forall2 in E1.
    assert (Hag : agrees (enumerate symbols) (map env symbols) env).
    { intros s i Hs. apply map_get_enumerate in Hs. destruct Hs as (j & -> & Hj).
      simpl. now apply map_nth_error. }
    clear Hb. clearbody symbols. clear P. induction E1; constructor; auto. split.
    + intros v Hv. pose proof (to_affine_sound _ _ _ Hag _ _ _ H Hv) as Hx.
      destruct x; auto.
    + intros Hm. destruct (to_affine_defined _ _ _ Hag _ _ H Hm) as (v & ? & ?).
      exists v. split; auto. destruct x; auto.
  - eapply Permutation_NoDup; [symmetry; exact P|apply NoDup_nodup].
  - apply sort_names_sorted.
  - intros s. rewrite <- in_flat_map, <- (nodup_In string_dec (flat_map dim_syms dims)).
    split; intros Hs.
    + exact (Permutation_in _ P Hs).
    + exact (Permutation_in _ (Permutation_sym P) Hs).
  - auto.
Qed.

Lemma supported_impl : forall (P Q : string -> Prop) e,
  (forall s, In s (free_syms e) -> P s -> Q s) -> supported P e -> supported Q e.
Proof.
  intros P Q e. induction e using sexpr_ind'; intros Hi Hs; inversion Hs; subst.
  - constructor. apply Hi; simpl; auto.
  - constructor.
  - constructor. simpl in Hi. clear Hs. induction H; constructor; inversion H1; subst.
    + apply H; auto. intros; apply Hi; auto. simpl. apply in_or_app. auto.
    + apply IHForall; auto. intros; apply Hi; auto. simpl. apply in_or_app. auto.
  - constructor. simpl in Hi. clear Hs. induction H; constructor; inversion H1; subst.
    + apply H; auto. intros; apply Hi; auto. simpl. apply in_or_app. auto.
    + apply IHForall; auto. intros; apply Hi; auto. simpl. apply in_or_app. auto.
  - constructor; auto. apply IHe1; auto. intros; apply Hi; auto. simpl. apply in_or_app; auto.
  - constructor; [apply IHe1|apply IHe2]; auto; intros; apply Hi; auto; simpl; apply in_or_app; auto.
Qed.

(** Succeeds exactly on supported shapes whose symbols have a guard. *)
Lemma bind_succeeds : forall bound dims,
  (exists r, bind_symbolic_shape bound dims = Some r) <->
  Forall (fun d => supported (fun s => In s bound) (dim_expr d)) dims.
Proof.
  intros bound dims. unfold bind_symbolic_shape.
  set (symbols := sort_names _) in *.
  assert (P : Permutation symbols (nodup string_dec (flat_map dim_syms dims)))
    by apply sort_names_perm.
  assert (Hin : forall d s, In d dims -> In s (dim_syms d) -> In s symbols).
  { intros d s Hd Hs. eapply Permutation_in; [symmetry; exact P|].
    apply nodup_In. apply in_flat_map. eauto. }
  assert (Hdl : forall d, free_syms (dim_expr d) = dim_syms d) by (destruct d; reflexivity).
  split.
  - intros [r H].
    destruct (mapM _ dims) as [ex|] eqn:E1 in H; simpl in H; [|discriminate].
    destruct (mapM _ (map fst _)) as [op|] eqn:E2 in H; simpl in H; [|discriminate].
    rewrite fst_enumerate in E2. apply mapM_filter_id in E2. destruct E2 as [-> Hb].
    apply Forall_forall. intros d Hd.
    destruct (to_affine (enumerate symbols) (dim_expr d)) eqn:Ed.
    + apply supported_impl with (P := fun s => map_get (enumerate symbols) s <> None).
      * intros s Hs _. apply Hb. rewrite Hdl in Hs. eauto.
      * apply to_affine_supported. eauto.
    + assert (mapM (fun d0 => to_affine (enumerate symbols) (dim_expr d0)) dims = None)
        by (apply mapM_none; eauto). congruence.
  - intros HF. rewrite Forall_forall in HF.
    destruct (mapM (fun d => to_affine (enumerate symbols) (dim_expr d)) dims) as [ex|] eqn:E1.
    2: { exfalso. apply mapM_none in E1. destruct E1 as (d & Hd & Ed).
         assert (exists a, to_affine (enumerate symbols) (dim_expr d) = Some a) as [a Ha]; [|congruence].
         apply to_affine_supported. eapply supported_impl; [|apply HF; auto].
         intros s Hs _ Hc. apply map_get_none in Hc. apply Hc. rewrite Hdl in Hs. eauto. }
    simpl. rewrite fst_enumerate.
    destruct (mapM (fun s => if existsb (String.eqb s) bound then Some s else None) symbols) as [op|] eqn:E2.
    { simpl. eauto. }
    exfalso. apply mapM_none in E2. destruct E2 as (s & Hs & Es).
    destruct (existsb (String.eqb s) bound) eqn:Eb; [discriminate|].
    assert (Hc : In s bound).
    { eapply Permutation_in in Hs; [|exact P]. apply nodup_In in Hs.
      apply in_flat_map in Hs. destruct Hs as (d & Hd & Hs).
      specialize (HF _ Hd). rewrite <- Hdl in Hs. clear -HF Hs.
      induction (dim_expr d) using sexpr_ind'; simpl in Hs; inversion HF; subst.
      - destruct Hs as [<-|[]]; auto.
      - destruct Hs.
      - clear HF. induction H; simpl in Hs; [destruct Hs|]. inversion H1; subst.
        apply in_app_or in Hs. destruct Hs; auto.
      - clear HF. induction H; simpl in Hs; [destruct Hs|]. inversion H1; subst.
        apply in_app_or in Hs. destruct Hs; auto.
      - simpl in Hs. rewrite app_nil_r in Hs. auto.
      - apply in_app_or in Hs. destruct Hs; auto. }
    assert (existsb (String.eqb s) bound = true); [|congruence].
    apply existsb_exists. exists s. split; auto. apply String.eqb_refl.
Qed.

(** ** Guards *)
Definition fits (n : Z) : Prop := int64_min <= n <= int64_max.

Lemma lower_exact : forall b lo n, wf_bnd b -> b <> BOo -> b <> BIntOo ->
  sympy_int_to_int true b = Some lo -> fits n -> (ge_lower b n <-> lo <= n).
Proof.
  unfold fits. intros b lo n Hw H1 H2 H Hf. destruct b; simpl in *; inversion H; subst; try congruence; try tauto;
  unfold int64_min, int64_max in *; try lia.
  split; intros; nia.
Qed.
Lemma upper_exact : forall b hi n, wf_bnd b -> b <> BNegOo -> b <> BNegIntOo ->
  sympy_int_to_int false b = Some hi -> fits n -> (le_upper b n <-> n <= hi).
Proof.
  unfold fits. intros b lo n Hw H1 H2 H Hf. destruct b; simpl in *; inversion H; subst; try congruence; try tauto;
  unfold int64_min, int64_max in *; try lia.
  split; intros; nia.
Qed.
Lemma lower_contains : forall b lo n, wf_bnd b ->
  sympy_int_to_int true b = Some lo -> fits n -> ge_lower b n -> lo <= n.
Proof.
  intros b lo n Hw H Hf Hg. destruct b; try (apply lower_exact with (n := n) in H; auto; try discriminate; tauto);
  simpl in Hg; tauto.
Qed.
Lemma upper_contains : forall b hi n, wf_bnd b ->
  sympy_int_to_int false b = Some hi -> fits n -> le_upper b n -> n <= hi.
Proof.
  intros b lo n Hw H Hf Hg. destruct b; try (apply upper_exact with (n := n) in H; auto; try discriminate; tauto);
  simpl in Hg; tauto.
Qed.

Lemma guards_spec : forall old ranges g out,
  set_symbolic_guards old ranges = Some g -> import_guards g = Some out ->
  existsb (fun kv => is_sym_int (r_lower (snd kv)) && is_sym_int (r_upper (snd kv))
                        && negb (r_is_bool (snd kv))) ranges = true ->
  Forall2 (fun kv o => fst o = fst kv /\
     sympy_int_to_int true (r_lower (snd kv)) = Some (fst (snd o)) /\
     sympy_int_to_int false (r_upper (snd kv)) = Some (snd (snd o)) /\
     fits (fst (snd o)) /\ fits (snd (snd o))) ranges out.
Proof.
  unfold set_symbolic_guards, import_guards. intros old ranges g out H1 H2 He.
  rewrite He in H1. clear He. revert g out H1 H2.
  induction ranges as [|kv r IH]; simpl; intros g out H1 H2.
  - inversion H1; subst. simpl in H2. inversion H2. constructor.
  - destruct (sympy_int_to_int true (r_lower (snd kv))) eqn:El; simpl in H1; [|discriminate].
    destruct (sympy_int_to_int false (r_upper (snd kv))) eqn:Eu; simpl in H1; [|discriminate].
    destruct (mapM _ r) eqn:Er in H1; simpl in H1; [|discriminate].
    inversion H1; subst; clear H1. simpl in H2. unfold integer_attr64 in H2 at 1 2.
    destruct ((int64_min <=? z) && (z <=? int64_max)) eqn:Ez; simpl in H2; [|discriminate].
    destruct ((int64_min <=? z0) && (z0 <=? int64_max)) eqn:Ez0; simpl in H2; [|discriminate].
    destruct (mapM _ l) eqn:El2 in H2; simpl in H2; [|discriminate].
    inversion H2; subst. constructor.
    + simpl. unfold fits. repeat split; auto; lia.
    + eapply IH; eauto.
Qed.
