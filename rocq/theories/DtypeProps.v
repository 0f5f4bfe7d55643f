(** Properties C48 (promotion is a join), C49 (self-promotion), C50 (result dtypes), C51 (dtype codes). *)
From Coq Require Import ZArith Bool Lia Relations Permutation List.
From Verif Require Import Prelude DtypeModel DtypeSpec.
Import ListNotations.
Open Scope Z_scope.

Lemma st_eqb_eq : forall a b, st_eqb a b = true <-> a = b.
Proof. intros. unfold st_eqb. destruct (st_eq_dec a b); split; congruence. Qed.
Lemma all_types : forall t, In t all_scalar_types.
Proof. intros []; unfold all_scalar_types; simpl; tauto. Qed.
Lemma code_bound : forall t, 0 <= code t <= 30.
Proof. intros []; vm_compute; split; discriminate. Qed.
Lemma decode_code : forall t, decode (code t) = Some t.
Proof. intros []; reflexivity. Qed.
Lemma code_inj : forall a b, code a = code b -> a = b.
Proof. intros a b H. pose proof (decode_code a) as A. rewrite H, decode_code in A. congruence. Qed.

(** The order, decided. *)
Definition ups (a : scalar_type) : list scalar_type :=
  match a with
  | Bool => [Bool; Byte; Char; Short; Int; Long; Half; BFloat16; Float; Double; ComplexFloat; ComplexDouble]
  | Byte => [Byte; Short; Int; Long; Half; BFloat16; Float; Double; ComplexFloat; ComplexDouble]
  | Char => [Char; Short; Int; Long; Half; BFloat16; Float; Double; ComplexFloat; ComplexDouble]
  | Short => [Short; Int; Long; Half; BFloat16; Float; Double; ComplexFloat; ComplexDouble]
  | Int => [Int; Long; Half; BFloat16; Float; Double; ComplexFloat; ComplexDouble]
  | Long => [Long; Half; BFloat16; Float; Double; ComplexFloat; ComplexDouble]
  | Half => [Half; Float; Double; ComplexFloat; ComplexDouble]
  | BFloat16 => [BFloat16; Float; Double; ComplexFloat; ComplexDouble]
  | Float => [Float; Double; ComplexFloat; ComplexDouble]
  | Double => [Double; ComplexDouble]
  | ComplexFloat => [ComplexFloat; ComplexDouble]
  | t => [t]
  end.
Definition leb (a b : scalar_type) : bool := existsb (st_eqb b) (ups a).
Lemma le_step : forall a b c, next a b -> le b c -> le a c.
Proof. intros a b c H1 H2. eapply rt_trans; [apply rt_step; exact H1|exact H2]. Qed.
Lemma le_here : forall a, le a a.
Proof. intros. apply rt_refl. Qed.
Ltac climb := first [apply le_here | eapply le_step; [constructor|]; climb].
Lemma leb_le : forall a b, leb a b = true -> le a b.
Proof.
  intros a b H. unfold leb in H. apply existsb_exists in H. destruct H as (x & Hx & E). apply st_eqb_eq in E. subst x.
  destruct a; simpl in Hx; repeat (destruct Hx as [<- |Hx]); try contradiction;
    first [apply le_here | solve [eauto 12 using le_step, le_here, next]].
Qed.
Lemma leb_trans : forall a b c, leb a b = true -> leb b c = true -> leb a c = true.
Proof.
  assert (H : forallb (fun a => forallb (fun b => forallb (fun c => implb (leb a b && leb b c) (leb a c)) all_scalar_types) all_scalar_types) all_scalar_types = true)
    by (vm_compute; reflexivity).
  intros a b c H1 H2. rewrite forallb_forall in H. specialize (H a (all_types a)). rewrite forallb_forall in H.
  specialize (H b (all_types b)). rewrite forallb_forall in H. specialize (H c (all_types c)). now rewrite H1, H2 in H.
Qed.
Lemma le_leb : forall a b, le a b -> leb a b = true.
Proof.
  intros a b H. induction H as [a b H|a|a b c _ IH1 _ IH2]; [destruct H; reflexivity|destruct a; reflexivity|eapply leb_trans; eauto].
Qed.
Lemma le_iff : forall a b, le a b <-> leb a b = true.
Proof. split; [apply le_leb|apply leb_le]. Qed.
Lemma le_trans : forall a b c, le a b -> le b c -> le a c.
Proof. intros. eapply rt_trans; eauto. Qed.
Lemma le_antisym : forall a b, le a b -> le b a -> a = b.
Proof.
  assert (H : forallb (fun a => forallb (fun b => implb (leb a b && leb b a) (st_eqb a b)) all_scalar_types) all_scalar_types = true)
    by (vm_compute; reflexivity).
  intros a b H1 H2. apply le_leb in H1, H2. rewrite forallb_forall in H. specialize (H a (all_types a)). rewrite forallb_forall in H.
  specialize (H b (all_types b)). rewrite H1, H2 in H. now apply st_eqb_eq.
Qed.
Definition ordb (t : scalar_type) : bool :=
  existsb (st_eqb t) [Bool; Byte; Char; Short; Int; Long; Half; BFloat16; Float; Double; ComplexFloat; ComplexDouble].
Lemma ordb_iff : forall t, ordb t = true <-> ordinary t.
Proof.
  intros t. unfold ordb, ordinary. rewrite existsb_exists. split.
  - intros (x & H & E). apply st_eqb_eq in E. now subst.
  - intros H. exists t. split; auto. now apply st_eqb_eq.
Qed.
Lemma all2 : forall P : scalar_type -> scalar_type -> bool,
  forallb (fun a => forallb (P a) all_scalar_types) all_scalar_types = true -> forall a b, P a b = true.
Proof.
  intros P H a b. rewrite forallb_forall in H. specialize (H a (all_types a)). rewrite forallb_forall in H. apply H, all_types.
Qed.

(** ** C48 *)
Lemma lub_unique : forall a b r r', lub a b r -> lub a b r' -> r = r'.
Proof. intros a b r r' (A & B & C) (A' & B' & C'). apply le_antisym; auto. Qed.
Definition lubb (a b r : scalar_type) : bool :=
  leb a r && leb b r && forallb (fun c => implb (leb a c && leb b c) (leb r c)) all_scalar_types.
Lemma lubb_lub : forall a b r, lubb a b r = true -> lub a b r.
Proof.
  intros a b r H. unfold lubb in H. apply andb_true_iff in H. destruct H as [H HC]. apply andb_true_iff in H. destruct H as [A B].
  rewrite forallb_forall in HC. split; [now apply leb_le|]. split; [now apply leb_le|]. intros c Ha Hb. apply leb_le.
  specialize (HC c (all_types c)). apply le_leb in Ha, Hb. now rewrite Ha, Hb in HC.
Qed.
Lemma promote_ordinary : forall a b, ordinary a -> ordinary b -> exists r, promoteTypes a b = Some r /\ lub a b r /\ ordinary r.
Proof.
  intros a b Ha Hb. apply ordb_iff in Ha, Hb.
  pose proof (all2 (fun a b => implb (ordb a && ordb b) (match promoteTypes a b with Some r => lubb a b r && ordb r | None => false end))
    ltac:(vm_compute; reflexivity) a b) as H. cbv beta in H. rewrite Ha, Hb in H. cbn [andb implb] in H.
  destruct (promoteTypes a b) as [r|]; [|discriminate]. apply andb_true_iff in H. destruct H. exists r. split; auto.
  split; [now apply lubb_lub|now apply ordb_iff].
Qed.
Theorem C48_promotion_is_least_upper_bound : forall a b r, ordinary a -> ordinary b -> (promoteTypes a b = Some r <-> lub a b r).
Proof.
  intros a b r Ha Hb. destruct (promote_ordinary a b Ha Hb) as (x & -> & L & _). split; [intros [= <-]; auto|].
  intros L'. f_equal. eapply lub_unique; eauto.
Qed.
Theorem C48_promotion_commutative : forall a b, promoteTypes a b = promoteTypes b a.
Proof.
  intros a b. pose proof (all2 (fun a b => match promoteTypes a b, promoteTypes b a with Some x, Some y => st_eqb x y | None, None => true | _, _ => false end)
    ltac:(vm_compute; reflexivity) a b) as H. cbv beta in H.
  destruct (promoteTypes a b), (promoteTypes b a); try discriminate; auto. apply st_eqb_eq in H. congruence.
Qed.
Theorem C48_promotion_associative : forall a b c ab bc, ordinary a -> ordinary b -> ordinary c ->
  promoteTypes a b = Some ab -> promoteTypes b c = Some bc -> promoteTypes ab c = promoteTypes a bc.
Proof.
  intros a b c ab bc Ha Hb Hc H1 H2.
  destruct (promote_ordinary a b Ha Hb) as (x & E & L1 & O1). rewrite E in H1. injection H1 as <-.
  destruct (promote_ordinary b c Hb Hc) as (y & E' & L2 & O2). rewrite E' in H2. injection H2 as <-.
  destruct (promote_ordinary x c O1 Hc) as (u & -> & L3 & _). destruct (promote_ordinary a y Ha O2) as (v & -> & L4 & _). f_equal.
  destruct L1 as (A1 & A2 & A3), L2 as (B1 & B2 & B3), L3 as (C1 & C2 & C3), L4 as (D1 & D2 & D3). apply le_antisym.
  - apply C3; [apply A3; [exact D1|exact (le_trans _ _ _ B1 D2)]|exact (le_trans _ _ _ B2 D2)].
  - apply D3; [exact (le_trans _ _ _ A1 C1)|apply B3; [exact (le_trans _ _ _ A2 C1)|exact C2]].
Qed.
Theorem C48_promotion_idempotent : forall a, ordinary a -> promoteTypes a a = Some a.
Proof. intros a Ha. apply C48_promotion_is_least_upper_bound; auto. split; [apply le_here|]. split; [apply le_here|auto]. Qed.
(** Promoting a list of dtypes gives the least dtype above all of them, in whatever order. *)
Definition ord_or_none (t : scalar_type) : Prop := t = Undefined \/ ordinary t.
Definition joinf (a b : scalar_type) : scalar_type := match promote_skip_undefined a b with Some r => r | None => Undefined end.
Lemma join_some : forall a b, ord_or_none a -> ordinary b -> promote_skip_undefined a b = Some (joinf a b) /\ ordinary (joinf a b).
Proof.
  intros a b Ha Hb. unfold joinf. unfold promote_skip_undefined. destruct Ha as [-> |Ha]; [simpl; auto|].
  assert (U : forall t, ordinary t -> st_eqb t Undefined = false).
  { intros t Ht. unfold ordinary in Ht. simpl in Ht. repeat (destruct Ht as [<- |Ht]); try contradiction; reflexivity. }
  rewrite !U by auto. destruct (promote_ordinary a b Ha Hb) as (r & -> & _ & O). auto.
Qed.
Lemma not_undefined : ~ ordinary Undefined.
Proof. unfold ordinary; simpl. intuition discriminate. Qed.
Lemma join_lub : forall a b, ordinary a -> ordinary b -> lub a b (joinf a b).
Proof.
  intros a b Ha Hb. destruct (join_some a b (or_intror Ha) Hb) as [E O]. apply C48_promotion_is_least_upper_bound; auto.
  rewrite <- E. unfold promote_skip_undefined. destruct (st_eqb a Undefined) eqn:Ea; [apply st_eqb_eq in Ea; subst; now apply not_undefined in Ha|].
  destruct (st_eqb b Undefined) eqn:Eb; [apply st_eqb_eq in Eb; subst; now apply not_undefined in Hb|]. reflexivity.
Qed.
Lemma join_list : forall l a, ordinary a -> Forall ordinary l -> ordinary (fold_left joinf l a) /\ lub_list (a :: l) (fold_left joinf l a).
Proof.
  induction l as [|b l IH]; intros a Ha F; simpl.
  - split; [exact Ha|]. split; [intros x [<- |[]]; apply le_here|]. intros c Hc. apply (Hc a). now left.
  - inversion_clear F as [|? ? Hb F']. destruct (join_some a b (or_intror Ha) Hb) as [_ O]. destruct (IH _ O F') as [O' [U M]].
    split; [exact O'|]. destruct (join_lub a b Ha Hb) as (A & B & C). split.
    + intros x [<- |[<- |Hx]]; [eapply le_trans; [exact A|apply U; now left]|eapply le_trans; [exact B|apply U; now left]|apply U; now right].
    + intros c Hc. apply M. intros x [<- |Hx]; [|apply Hc; right; now right]. apply C; apply Hc; [now left|right; now left].
Qed.
Lemma fold_join : forall l a, ord_or_none a -> Forall ordinary l -> foldM promote_skip_undefined l a = Some (fold_left joinf l a).
Proof.
  induction l as [|b l IH]; intros a Ha F; simpl; auto. inversion_clear F as [|? ? Hb F'].
  destruct (join_some a b Ha Hb) as [-> O]. cbn [obind]. apply IH; auto. now right.
Qed.
Lemma lub_list_unique : forall l r r', lub_list l r -> lub_list l r' -> r = r'.
Proof. intros l r r' [A B] [A' B']. apply le_antisym; auto. Qed.
Lemma join_none : forall b, joinf Undefined b = b.
Proof. reflexivity. Qed.
Theorem C48_list_promotion_is_least_upper_bound : forall l r, l <> [] -> Forall ordinary l ->
  (foldM promote_skip_undefined l Undefined = Some r <-> lub_list l r).
Proof.
  intros l r Hl F. rewrite fold_join by (auto; now left). destruct l as [|a l]; [easy|]. simpl fold_left. rewrite join_none.
  inversion_clear F as [|? ? Ha F']. destruct (join_list l a Ha F') as [_ L]. split; [intros [= <-]; auto|].
  intros L'. f_equal. eapply lub_list_unique; eauto.
Qed.
Theorem C48_list_promotion_order_irrelevant : forall l l', Forall ordinary l -> Permutation l l' ->
  foldM promote_skip_undefined l Undefined = foldM promote_skip_undefined l' Undefined.
Proof.
  intros l l' F P. assert (F' : Forall ordinary l') by (eapply Permutation_Forall; eauto).
  destruct l as [|a l]; [apply Permutation_nil in P; now subst|].
  assert (N : l' <> []) by (intros ->; apply Permutation_sym, Permutation_nil in P; discriminate).
  rewrite (fold_join l') by (auto; now left). symmetry in P.
  apply (C48_list_promotion_is_least_upper_bound (a :: l)); [discriminate|auto|].
  destruct l' as [|b l']; [easy|]. simpl fold_left. rewrite join_none. inversion_clear F' as [|? ? Hb F''].
  destruct (join_list l' b Hb F'') as [_ [U M]]. split.
  - intros x Hx. apply U. eapply Permutation_in; [apply Permutation_sym; exact P|exact Hx].
  - intros c Hc. apply M. intros x Hx. apply Hc. eapply Permutation_in; eauto.
Qed.
(** ComplexHalf has no promotion with the real dtypes. *)
Theorem C48_complex_half_refuted : forall t, ordinary t -> category t < 3 -> promoteTypes ComplexHalf t = Some Undefined.
Proof.
  intros t Ht Hc. unfold ordinary in Ht. simpl in Ht. repeat (destruct Ht as [<- |Ht]); try contradiction; try reflexivity; vm_compute in Hc; discriminate.
Qed.
(** Quantized dtypes promote only with themselves. *)
Theorem C48_quantized : forall a b, isQIntType a = true -> b <> Undefined -> promoteTypes a b = if st_eqb a b then Some a else None.
Proof.
  intros a b Ha Hb. unfold promoteTypes. rewrite Ha. cbn [andb orb].
  assert (N : a <> Undefined) by (intros ->; discriminate).
  destruct (st_eqb a Undefined) eqn:E1; [now apply st_eqb_eq in E1|]. destruct (st_eqb b Undefined) eqn:E2; [now apply st_eqb_eq in E2|].
  reflexivity.
Qed.
Theorem C48_quantized_types : forall t, isQIntType t = true <-> In t [QInt8; QUInt8; QInt16; QInt32; QUInt4x2; QUInt2x4].
Proof. intros []; vm_compute; intuition (congruence || discriminate). Qed.
(** An undefined operand makes the result undefined. *)
Theorem C48_undefined_absorbs : forall t, promoteTypes Undefined t = Some Undefined /\ promoteTypes t Undefined = Some Undefined.
Proof. intros []; split; reflexivity. Qed.
(** The priorities extend the promotion order. *)
Theorem C48_priority_extends_order : forall a b, next a b ->
  exists p q, get_priority_of_dtype a = Some p /\ get_priority_of_dtype b = Some q /\ p < q.
Proof. intros a b []; do 2 eexists; (split; [reflexivity|]); (split; [reflexivity|]); reflexivity. Qed.
Theorem C48_priorities_are_ranks : (forall t, (exists p, get_priority_of_dtype t = Some p) <-> ordinary t) /\
  (forall a b p, get_priority_of_dtype a = Some p -> get_priority_of_dtype b = Some p -> a = b) /\
  (forall p, 0 <= p < 12 <-> exists t, get_priority_of_dtype t = Some p).
Proof.
  split; [|split].
  - intros t. rewrite <- ordb_iff. destruct t; vm_compute; split; intros H; try discriminate; try (destruct H; discriminate); eauto.
  - intros [] []; simpl; congruence.
  - intros p. split.
    + intros H. assert (C : p = 0 \/ p = 1 \/ p = 2 \/ p = 3 \/ p = 4 \/ p = 5 \/ p = 6 \/ p = 7 \/ p = 8 \/ p = 9 \/ p = 10 \/ p = 11) by lia.
      repeat (destruct C as [-> |C]); [exists Bool|exists Byte|exists Char|exists Short|exists Int|exists Long|exists BFloat16|exists Half|exists Float|exists Double|exists ComplexFloat|subst; exists ComplexDouble]; reflexivity.
    + intros (t & Ht). destruct t; simpl in Ht; try discriminate; injection Ht as <-; lia.
Qed.
Example C48_nonvacuous : promoteTypes Byte Char = Some Short /\ promoteTypes Half BFloat16 = Some Float /\
  promoteTypes Double ComplexFloat = Some ComplexDouble /\ foldM promote_skip_undefined [Bool; Long; Half] Undefined = Some Half /\ lub Byte Char Short.
Proof. repeat (split; [reflexivity|]). apply lubb_lub. reflexivity. Qed.

(** ** C49 *)
Theorem C49_self_promotion_exact : forall a, promoteTypes a a = Some a <->
  (ordinary a \/ In a [ComplexHalf; QInt8; QUInt8; QInt16; QInt32; QUInt4x2; QUInt2x4; Undefined]).
Proof.
  intros a. rewrite <- ordb_iff. destruct a; vm_compute; split; intros H; try reflexivity; try discriminate; try (left; reflexivity);
    try (right; tauto); destruct H as [H|H]; try discriminate; repeat (destruct H as [H|H]; try discriminate); try contradiction.
Qed.
(** The small floats and the bit types promote to uint8, even with themselves. *)
Theorem C49_small_floats_become_uint8_refuted : forall a b,
  In a [Float8_e5m2; Float8_e4m3fn; Float8_e5m2fnuz; Float8_e4m3fnuz; Float8_e8m0fnu; Float4_e2m1fn_x2; Bits8; Bits16; Bits1x8; Bits2x4; Bits4x2] ->
  b <> Undefined -> isQIntType b = false -> promoteTypes a b = Some Byte.
Proof.
  intros a b Ha Hu Hq. simpl in Ha. repeat (destruct Ha as [<- |Ha]); try contradiction; destruct b; try reflexivity; try discriminate; now elim Hu.
Qed.
Example C49_nonvacuous : promoteTypes Float8_e5m2 Float8_e5m2 = Some Byte /\ promoteTypes Half Half = Some Half.
Proof. split; reflexivity. Qed.

(** ** C50 *)
Theorem C50_combine_categories_spec : forall h l r, ordinary h -> ordinary l -> (combine_categories h l = Some r <-> outranks h l r).
Proof.
  intros h l r Hh Hl.
  assert (S : exists x, combine_categories h l = Some x /\ outranks h l x).
  { apply ordb_iff in Hh, Hl.
    pose proof (all2 (fun h l => implb (ordb h && ordb l) (match combine_categories h l with
        Some r => if category l <=? category h then st_eqb r h else lubb h l r | None => false end))
      ltac:(vm_compute; reflexivity) h l) as H. cbv beta in H. rewrite Hh, Hl in H. cbn [andb implb] in H.
    destruct (combine_categories h l) as [x|]; [|discriminate]. exists x. split; auto. unfold outranks.
    destruct (Z.leb_spec (category l) (category h)); [left; split; auto; now apply st_eqb_eq|right; split; auto; now apply lubb_lub]. }
  destruct S as (x & -> & O). split; [intros [= <-]; auto|]. intros O'. f_equal. unfold outranks in *.
  destruct O as [[A ->]|[A B]], O' as [[A' ->]|[A' B']]; auto; try lia. eapply lub_unique; eauto.
Qed.
Definition toopt (t : scalar_type) : option scalar_type := if st_eqb t Undefined then None else Some t.
Lemma toopt_ord : forall t, ordinary t -> toopt t = Some t.
Proof. intros t Ht. unfold toopt. destruct (st_eqb t Undefined) eqn:E; auto. apply st_eqb_eq in E. subst. now apply not_undefined in Ht. Qed.
Lemma combine_opt : forall h l, ord_or_none h -> ord_or_none l ->
  exists r, combine_categories h l = Some r /\ ord_or_none r /\ outranks_opt (toopt h) (toopt l) (toopt r).
Proof.
  intros h l Hh Hl. destruct Hh as [-> |Hh].
  - exists l. split; [|split; [exact Hl|reflexivity]]. destruct Hl as [-> |Hl]; [reflexivity|].
    unfold ordinary in Hl. simpl in Hl. repeat (destruct Hl as [<- |Hl]); try contradiction; reflexivity.
  - destruct Hl as [-> |Hl].
    + exists h. split; [|split; [now right|rewrite (toopt_ord h) by auto; reflexivity]].
      unfold ordinary in Hh. simpl in Hh. repeat (destruct Hh as [<- |Hh]); try contradiction; reflexivity.
    + destruct (combine_categories h l) as [r|] eqn:E.
      * exists r. split; auto. apply C50_combine_categories_spec in E; auto.
        assert (ordinary r). { destruct E as [[_ ->]|[_ E]]; auto. destruct (promote_ordinary h l Hh Hl) as (x & P & L & O).
          rewrite (lub_unique h l r x E L). exact O. }
        split; [now right|]. rewrite !toopt_ord by auto. simpl. eauto.
      * exfalso. destruct (Z_le_gt_dec (category l) (category h)).
        -- assert (C : combine_categories h l = Some h) by (apply C50_combine_categories_spec; auto; left; auto). congruence.
        -- destruct (promote_ordinary h l Hh Hl) as (x & P & L & O).
           assert (C : combine_categories h l = Some x) by (apply C50_combine_categories_spec; auto; right; split; [lia|auto]). congruence.
Qed.
(** Operands as they are given to torch.promote_dtypes: known ranks, ordinary dtypes, numbers int or float. *)
Definition valid_operand (o : option Z * scalar_type) : Prop :=
  ordinary (snd o) /\ match fst o with Some k => 0 <= k | None => snd o = Long \/ snd o = Double end.
Definition only_numbers (l : list (option Z * scalar_type)) : bool := forallb (fun o => no_rank (fst o)) l.
Lemma number_ord : forall b t, t = Long \/ t = Double -> ordinary (number_dtype b t).
Proof. intros b t [-> | ->]; destruct b; unfold ordinary; simpl; tauto. Qed.
Lemma promote_steps : forall b l st, Forall valid_operand l ->
  ord_or_none (dimResult st) -> ord_or_none (zeroResult st) -> ord_or_none (wrappedResult st) ->
  foldM (promote_step b) (map (fun o => (fst o, code (snd o))) l) st =
  Some {| dimResult := fold_left joinf (dim_types l) (dimResult st);
          wrappedResult := fold_left joinf (map (number_dtype b) (number_types l)) (wrappedResult st);
          zeroResult := fold_left joinf (zero_types l) (zeroResult st) |}.
Proof.
  induction l as [|[rk t] l IH]; intros st F Hd Hz Hw; [destruct st; reflexivity|].
  inversion_clear F as [|? ? [Ho Hr] F']. cbn [fst snd] in *. cbn [map foldM fst snd]. unfold promote_step at 1. rewrite decode_code. cbn [obind].
  unfold dim_types, zero_types, number_types. cbn [filter fst]. destruct rk as [k|].
  - destruct (Z.eqb_spec k 0) as [-> |N].
    + change (0 <? 0) with false. destruct (join_some (zeroResult st) t Hz Ho) as [-> O]. cbn [obind]. rewrite IH by (first [assumption | right; exact O]). reflexivity.
    + destruct (Z.ltb_spec 0 k); [|lia]. destruct (join_some (dimResult st) t Hd Ho) as [-> O]. cbn [obind]. rewrite IH by (first [assumption | right; exact O]). reflexivity.
  - pose proof (number_ord b t Hr) as O'. destruct (join_some (wrappedResult st) (number_dtype b t) Hw O') as [E O].
    assert (X : (do ty <- getTorchTypeForScalarType t; do bt <- (if b then getBuiltInTypeForTorchScalar ty else getDefaultDtypeForTorchScalar ty);
        do t' <- getScalarTypeForType bt; do r <- promote_skip_undefined (wrappedResult st) t';
        Some {| dimResult := dimResult st; wrappedResult := r; zeroResult := zeroResult st |}) =
        Some {| dimResult := dimResult st; wrappedResult := joinf (wrappedResult st) (number_dtype b t); zeroResult := zeroResult st |}).
    { destruct Hr as [-> | ->], b; cbn [getTorchTypeForScalarType obind getBuiltInTypeForTorchScalar getDefaultDtypeForTorchScalar getScalarTypeForType number_dtype] in *;
        rewrite E; reflexivity. }
    rewrite X. cbn [obind]. rewrite IH by (first [assumption | right; exact O]). reflexivity.
Qed.
Lemma join_opt : forall l, Forall ordinary l -> ord_or_none (fold_left joinf l Undefined) /\ lub_opt l (toopt (fold_left joinf l Undefined)).
Proof.
  intros [|a l] F; [split; [now left|exact I]|]. simpl fold_left. rewrite join_none. inversion_clear F as [|? ? Ha F'].
  destruct (join_list l a Ha F') as [O L]. split; [now right|]. rewrite toopt_ord by auto. exact L.
Qed.
Lemma lub_opt_unique : forall l r r', lub_opt l r -> lub_opt l r' -> r = r'.
Proof.
  intros [|a l] [r|] [r'|] H H'; simpl in *; try contradiction; auto. f_equal. eapply lub_list_unique; eauto.
Qed.
Lemma outranks_opt_unique : forall h l r r', outranks_opt h l r -> outranks_opt h l r' -> r = r'.
Proof.
  intros [h|] [l|] r r' H H'; simpl in *; try congruence. destruct H as (x & -> & A), H' as (y & -> & B). f_equal. unfold outranks in *.
  destruct A as [[A ->]|[A C]], B as [[B ->]|[B D]]; auto; try lia. eapply lub_unique; eauto.
Qed.
Lemma types_ordinary : forall l, Forall valid_operand l ->
  Forall ordinary (dim_types l) /\ Forall ordinary (zero_types l) /\ forall b, Forall ordinary (map (number_dtype b) (number_types l)).
Proof.
  intros l F. rewrite Forall_forall in F. unfold dim_types, zero_types, number_types. repeat split; [| |intros b]; apply Forall_forall; intros t Ht.
  - apply in_map_iff in Ht. destruct Ht as (o & <- & Ho). apply filter_In in Ho. now apply F.
  - apply in_map_iff in Ht. destruct Ht as (o & <- & Ho). apply filter_In in Ho. now apply F.
  - apply in_map_iff in Ht. destruct Ht as (u & <- & Hu). apply in_map_iff in Hu. destruct Hu as (o & <- & Ho). apply filter_In in Ho.
    destruct Ho as [Ho E]. destruct (F o Ho) as [_ R]. destruct (fst o); [discriminate|]. now apply number_ord.
Qed.
(** The result is what the three classes of operands give by the outranking rule. *)
Theorem C50_promote_dtypes_spec : forall l c, l <> [] -> Forall valid_operand l ->
  (decompose_promote_dtypes (map fst l) (map (fun o => code (snd o)) l) = Some c <->
   exists dims zeros numbers low r, lub_opt (dim_types l) dims /\ lub_opt (zero_types l) zeros /\
     lub_opt (map (number_dtype (only_numbers l)) (number_types l)) numbers /\
     outranks_opt zeros numbers low /\ outranks_opt dims low (Some r) /\ c = code r).
Proof.
  intros l c Hl F. unfold decompose_promote_dtypes.
  assert (Z1 : zlen (map fst l) =? 0 = false) by (unfold zlen; rewrite map_length; destruct l; [easy|simpl length; lia]).
  assert (Z2 : zlen (map (fun o : option Z * scalar_type => code (snd o)) l) =? 0 = false) by (unfold zlen; rewrite map_length; destruct l; [easy|simpl length; lia]).
  assert (Z3 : zlen (map fst l) =? zlen (map (fun o : option Z * scalar_type => code (snd o)) l) = true) by (unfold zlen; rewrite !map_length; lia).
  rewrite Z1, Z2, Z3. cbn [orb negb].
  assert (C : combine (map fst l) (map (fun o : option Z * scalar_type => code (snd o)) l) = map (fun o => (fst o, code (snd o))) l)
    by (clear; induction l; simpl; f_equal; auto).
  assert (B : forallb no_rank (map fst l) = only_numbers l) by (clear; unfold only_numbers; induction l; simpl; f_equal; auto).
  rewrite C, B, promote_steps by (auto; now left). cbn [obind]. unfold result_type. cbn [dimResult zeroResult wrappedResult initial_state].
  destruct (types_ordinary l F) as (Fd & Fz & Fn). specialize (Fn (only_numbers l)).
  destruct (join_opt _ Fd) as [Od Ld], (join_opt _ Fz) as [Oz Lz], (join_opt _ Fn) as [On Ln].
  destruct (combine_opt _ _ Oz On) as (low & -> & Olow & R1). cbn [obind].
  destruct (combine_opt _ _ Od Olow) as (r & -> & Or & R2). cbn [obind].
  assert (Or' : ordinary r).
  { destruct Or as [-> |]; auto. exfalso. change (toopt Undefined) with (@None scalar_type) in R2.
    assert (N : forall h l' : option scalar_type, outranks_opt h l' None -> h = None /\ l' = None).
    { intros [h|] [l'|]; simpl; intros Hx; try discriminate; auto. destruct Hx as (? & ? & _). discriminate. }
    apply N in R2. destruct R2 as [D0 L0]. rewrite L0 in R1. apply N in R1. destruct R1 as [Z0 W0].
    rewrite D0 in Ld. rewrite Z0 in Lz. rewrite W0 in Ln.
    assert (E : forall l' : list scalar_type, lub_opt l' None -> l' = []) by (intros []; simpl; tauto).
    apply E in Ld, Lz, Ln. apply map_eq_nil in Ln. destruct l as [|[rk t] l]; [easy|].
    inversion_clear F as [|? ? [_ Hr] _]. unfold dim_types, zero_types, number_types in *. cbn [filter fst snd] in *. destruct rk as [k|]; [|discriminate].
    destruct (Z.ltb_spec 0 k); [discriminate|]. destruct (Z.eqb_spec k 0); [discriminate|lia]. }
  split.
  - intros [= <-]. do 5 eexists. split; [exact Ld|]. split; [exact Lz|]. split; [exact Ln|]. split; [exact R1|].
    rewrite (toopt_ord r) in R2 by auto. split; [exact R2|reflexivity].
  - intros (d & z & n & lo & r' & Ld' & Lz' & Ln' & R1' & R2' & ->). f_equal. f_equal.
    rewrite (lub_opt_unique _ _ _ Ld' Ld) in R2'. rewrite (lub_opt_unique _ _ _ Lz' Lz), (lub_opt_unique _ _ _ Ln' Ln) in R1'.
    rewrite (outranks_opt_unique _ _ _ _ R1' R1) in R2'. pose proof (outranks_opt_unique _ _ _ _ R2' R2) as E.
    rewrite toopt_ord in E by auto. congruence.
Qed.
(** Malformed calls are not rewritten. *)
Theorem C50_malformed_not_rewritten : forall ranks dtypes, (ranks = [] \/ length ranks <> length dtypes \/ exists k, In (Some k) ranks /\ k < 0) ->
  decompose_promote_dtypes ranks dtypes = None.
Proof.
  intros ranks dtypes H. unfold decompose_promote_dtypes.
  destruct (Z.eqb_spec (zlen ranks) 0) as [|N]; [reflexivity|]. destruct (Z.eqb_spec (zlen dtypes) 0); [reflexivity|]. cbn [orb].
  destruct (Z.eqb_spec (zlen ranks) (zlen dtypes)) as [E|]; [|reflexivity]. cbn [negb]. unfold zlen in *.
  destruct H as [-> |[H|(k & Hk & Hn)]]; [now elim N|lia|].
  assert (X : forall b rs ds st, length rs = length ds -> In (Some k) rs -> foldM (promote_step b) (combine rs ds) st = None).
  { clear - Hn. intros b. induction rs as [|r rs IH]; intros [|d ds] st L I; try discriminate; [destruct I|]. cbn [combine foldM].
    destruct I as [-> |I].
    - unfold promote_step. destruct (decode d); [|reflexivity]. cbn [obind]. destruct (Z.eqb_spec k 0); [lia|]. destruct (Z.ltb_spec 0 k); [lia|reflexivity].
    - destruct (promote_step b st (r, d)); [|reflexivity]. cbn [obind]. apply IH; auto. }
  rewrite X by (auto; lia). reflexivity.
Qed.
(** The category of the result is the highest among the operands. *)
Lemma le_category : forall a b, ordinary b -> le a b -> category a <= category b.
Proof.
  intros a b Hb H. apply le_leb in H. apply ordb_iff in Hb.
  pose proof (all2 (fun a b => implb (ordb b && leb a b) (category a <=? category b)) ltac:(vm_compute; reflexivity) a b) as C.
  cbv beta in C. rewrite H, Hb in C. cbn [andb implb] in C. lia.
Qed.
Lemma outranks_category : forall h l r, ordinary h -> ordinary l -> outranks h l r -> category r = Z.max (category h) (category l).
Proof.
  intros h l r Hh Hl H.
  destruct H as [[A ->]|[A B]]; [lia|]. destruct (promote_ordinary h l Hh Hl) as (x & P & L & O). rewrite (lub_unique _ _ _ _ B L).
  apply ordb_iff in Hh, Hl. pose proof (all2 (fun a b => implb (ordb a && ordb b) (match promoteTypes a b with Some x => category x =? Z.max (category a) (category b) | None => false end))
    ltac:(vm_compute; reflexivity) h l) as C. cbv beta in C. rewrite Hh, Hl, P in C. cbn [andb implb] in C. lia.
Qed.
Theorem C50_dimensioned_operands_decide : forall l d, l <> [] -> Forall valid_operand l -> lub_list (dim_types l) d -> dim_types l <> [] ->
  (forall o, In o l -> category (snd o) <= category d) ->
  decompose_promote_dtypes (map fst l) (map (fun o => code (snd o)) l) = Some (code d).
Proof.
  intros l d Hl F Ld Nd Hc. destruct (types_ordinary l F) as (Fd & Fz & Fn). specialize (Fn (only_numbers l)).
  destruct (join_opt _ Fz) as [Oz Lz], (join_opt _ Fn) as [On Ln].
  destruct (combine_opt _ _ Oz On) as (low & _ & Olow & R1).
  apply C50_promote_dtypes_spec; auto. do 5 eexists. split; [|split; [exact Lz|split; [exact Ln|split; [exact R1|split; [|reflexivity]]]]].
  { instantiate (1 := Some d). destruct (dim_types l); [easy|exact Ld]. }
  unfold toopt. destruct (st_eqb low Undefined) eqn:E; [reflexivity|]. exists d. split; auto. left. split; auto.
  assert (Cz : forall x, In x (zero_types l) \/ In x (map (number_dtype (only_numbers l)) (number_types l)) -> category x <= category d).
  { intros x [Hx|Hx].
    - unfold zero_types in Hx. apply in_map_iff in Hx. destruct Hx as (o & <- & Ho). apply filter_In in Ho. now apply Hc.
    - apply in_map_iff in Hx. destruct Hx as (u & <- & Hu). unfold number_types in Hu. apply in_map_iff in Hu. destruct Hu as (o & <- & Ho).
      apply filter_In in Ho. destruct Ho as [Ho _]. specialize (Hc o Ho). destruct (snd o); auto. destruct (only_numbers l); auto. }
  assert (CL : forall ts t, Forall ordinary ts -> lub_opt ts (Some t) -> (forall x, In x ts -> category x <= category d) -> category t <= category d).
  { intros ts t Ft Lt Ct. destruct ts as [|a ts]; [destruct Lt|]. inversion_clear Ft as [|? ? Ha Ft'].
    destruct (join_list ts a Ha Ft') as [_ L]. rewrite (lub_list_unique _ _ _ Lt L). clear L Lt.
    assert (M : forall ts a, ordinary a -> Forall ordinary ts -> category a <= category d -> (forall x, In x ts -> category x <= category d) ->
       category (fold_left joinf ts a) <= category d).
    { clear. induction ts as [|b ts IH]; intros a Ha Ft Ca Ct; simpl; auto. inversion_clear Ft as [|? ? Hb Ft'].
      destruct (join_some a b (or_intror Ha) Hb) as [_ O]. apply IH; auto; [|intros; apply Ct; now right].
      destruct (Z_le_gt_dec (category b) (category a)) as [Q|Q]; [|].
      - pose proof (join_lub a b Ha Hb) as J. destruct (promote_ordinary a b Ha Hb) as (x & P & L & _). rewrite (lub_unique _ _ _ _ J L).
        apply ordb_iff in Ha, Hb. pose proof (all2 (fun a b => implb (ordb a && ordb b) (match promoteTypes a b with Some x => category x =? Z.max (category a) (category b) | None => false end))
          ltac:(vm_compute; reflexivity) a b) as C. cbv beta in C. rewrite Ha, Hb, P in C. cbn [andb implb] in C. lia.
      - pose proof (join_lub a b Ha Hb) as J. rewrite (outranks_category a b (joinf a b)); auto; [|right; split; [lia|auto]].
        specialize (Ct b (or_introl eq_refl)). lia. }
    apply M; auto; [apply Ct; now left|intros; apply Ct; now right]. }
  destruct Olow as [-> |Olow]; [discriminate|]. rewrite (toopt_ord low) in R1 by auto.
  set (jz := fold_left joinf (zero_types l) Undefined) in *.
  set (jn := fold_left joinf (map (number_dtype (only_numbers l)) (number_types l)) Undefined) in *.
  unfold toopt in R1, Lz, Ln. destruct (st_eqb jz Undefined) eqn:Ez, (st_eqb jn Undefined) eqn:En; simpl in R1; try discriminate.
  - injection R1 as ->. eapply CL; [exact Fn|exact Ln|intros; apply Cz; now right].
  - injection R1 as ->. eapply CL; [exact Fz|exact Lz|intros; apply Cz; now left].
  - destruct R1 as (x & [= <-] & R1). rewrite (outranks_category jz jn low); auto.
    + assert (category jz <= category d) by (eapply CL; [exact Fz|exact Lz|intros; apply Cz; now left]).
      assert (category jn <= category d) by (eapply CL; [exact Fn|exact Ln|intros; apply Cz; now right]). lia.
    + destruct Oz as [Oz|]; auto. rewrite Oz in Ez. discriminate.
    + destruct On as [On|]; auto. rewrite On in En. discriminate.
Qed.
(** The Python function agrees with the compiler pass on two operands ... *)
Definition sgn (k : Z) : Z := if k <=? 0 then 0 else 1.
Lemma step_sgn : forall b st k d, 0 <= k -> promote_step b st (Some k, d) = promote_step b st (Some (sgn k), d).
Proof.
  intros b st k d Hk. unfold promote_step, sgn. destruct (decode d); auto. cbn [obind]. destruct (Z.leb_spec k 0).
  - replace k with 0 by lia. reflexivity.
  - destruct (Z.eqb_spec k 0); [lia|]. destruct (Z.ltb_spec 0 k); [|lia]. reflexivity.
Qed.
Definition osgn (o : operand) : operand := match o with Tensor k t => Tensor (sgn k) t | w => w end.
Lemma result_sgn : forall a b, torch_result_type a b = torch_result_type (osgn a) (osgn b).
Proof.
  intros a b. unfold torch_result_type.
  assert (E : forall k, (sgn k <=? 0) = (k <=? 0)) by (intros k; unfold sgn; destruct (k <=? 0); reflexivity).
  destruct a as [t|k t], b as [u|m u]; cbn [osgn]; rewrite ?E; reflexivity.
Qed.
Lemma self_result : forall k t, ordinary t -> promote_tensor_tensor k t k t = Some t.
Proof.
  intros k t Ht. unfold promote_tensor_tensor. rewrite result_sgn. cbn [osgn]. unfold sgn. unfold ordinary in Ht. simpl in Ht.
  destruct (k <=? 0); repeat (destruct Ht as [<- |Ht]); try contradiction; reflexivity.
Qed.
Definition same (x : option Z) (y : option scalar_type) : bool :=
  match x, y with Some c, Some t => c =? code t | None, None => true | _, _ => false end.
Lemma same_eq : forall x y, same x y = true -> x = option_map code y.
Proof. intros [c|] [t|] H; simpl in *; try discriminate; auto. f_equal. lia. Qed.
Definition numb (t : scalar_type) : bool := st_eqb t Long || st_eqb t Double.
Lemma numb_iff : forall t, t = Long \/ t = Double -> numb t = true.
Proof. intros t [-> | ->]; reflexivity. Qed.
Lemma sgn_cases : forall k, sgn k = 0 \/ sgn k = 1.
Proof. intros. unfold sgn. destruct (k <=? 0); auto. Qed.
Theorem C50_python_agrees_on_two_operands : forall a b, valid_operand a -> valid_operand b ->
  decompose_promote_dtypes [fst a; fst b] [code (snd a); code (snd b)] =
  option_map code (py_promote_dtypes [fst a; fst b] [snd a; snd b]).
Proof.
  intros [ra ta] [rb tb] [Oa Ra] [Ob Rb]. cbn [fst snd] in *. apply same_eq. unfold py_promote_dtypes.
  change (pyidx [ra; rb] 0) with (Some ra). change (pyidx [ta; tb] 0) with (Some ta). cbn [obind combine foldM].
  unfold decompose_promote_dtypes. change (zlen [ra; rb] =? 0) with false. change (zlen [code ta; code tb] =? 0) with false.
  change (zlen [ra; rb] =? zlen [code ta; code tb]) with true. cbn [orb negb combine foldM forallb].
  destruct ra as [ka|], rb as [kb|]; cbn [no_rank andb]; unfold py_promote_step.
  - rewrite step_sgn by auto. rewrite (self_result ka ta Oa). cbn [obind]. rewrite Z.max_id.
    assert (E : (do s' <- promote_step false initial_state (Some (sgn ka), code ta); do s'0 <- promote_step false s' (Some kb, code tb); Some s'0) =
                (do s' <- promote_step false initial_state (Some (sgn ka), code ta); do s'0 <- promote_step false s' (Some (sgn kb), code tb); Some s'0))
      by (destruct (promote_step false initial_state (Some (sgn ka), code ta)); cbn [obind]; auto; now rewrite step_sgn by auto).
    rewrite E. unfold promote_tensor_tensor. rewrite result_sgn. cbn [osgn].
    apply ordb_iff in Oa, Ob. clear E. destruct (sgn_cases ka) as [-> | ->], (sgn_cases kb) as [-> | ->].
    + pose proof (all2 (fun ta tb => implb (ordb ta && ordb tb) (same (do st <- (do s' <- promote_step false initial_state (Some 0, code ta); do s'0 <- promote_step false s' (Some 0, code tb); Some s'0); do r <- result_type st; Some (code r))
        (torch_result_type (Tensor 0 ta) (Tensor 0 tb)))) ltac:(vm_compute; reflexivity) ta tb) as H. cbv beta in H. rewrite Oa, Ob in H. cbn [andb implb] in H.
      destruct (torch_result_type _ _); exact H.
    + pose proof (all2 (fun ta tb => implb (ordb ta && ordb tb) (same (do st <- (do s' <- promote_step false initial_state (Some 0, code ta); do s'0 <- promote_step false s' (Some 1, code tb); Some s'0); do r <- result_type st; Some (code r))
        (torch_result_type (Tensor 0 ta) (Tensor 1 tb)))) ltac:(vm_compute; reflexivity) ta tb) as H. cbv beta in H. rewrite Oa, Ob in H. cbn [andb implb] in H.
      destruct (torch_result_type _ _); exact H.
    + pose proof (all2 (fun ta tb => implb (ordb ta && ordb tb) (same (do st <- (do s' <- promote_step false initial_state (Some 1, code ta); do s'0 <- promote_step false s' (Some 0, code tb); Some s'0); do r <- result_type st; Some (code r))
        (torch_result_type (Tensor 1 ta) (Tensor 0 tb)))) ltac:(vm_compute; reflexivity) ta tb) as H. cbv beta in H. rewrite Oa, Ob in H. cbn [andb implb] in H.
      destruct (torch_result_type _ _); exact H.
    + pose proof (all2 (fun ta tb => implb (ordb ta && ordb tb) (same (do st <- (do s' <- promote_step false initial_state (Some 1, code ta); do s'0 <- promote_step false s' (Some 1, code tb); Some s'0); do r <- result_type st; Some (code r))
        (torch_result_type (Tensor 1 ta) (Tensor 1 tb)))) ltac:(vm_compute; reflexivity) ta tb) as H. cbv beta in H. rewrite Oa, Ob in H. cbn [andb implb] in H.
      destruct (torch_result_type _ _); exact H.
  - rewrite step_sgn by auto. rewrite (self_result ka ta Oa). cbn [obind]. rewrite Z.max_id. unfold promote_scalar_tensor.
    assert (E : forall s, torch_result_type (Wrapped s) (Tensor ka ta) = torch_result_type (Wrapped s) (Tensor (sgn ka) ta)) by (intros; now rewrite result_sgn).
    apply ordb_iff in Oa. apply numb_iff in Rb.
    assert (G : forall k, k = 0 \/ k = 1 -> same (do st <- (do s' <- promote_step false initial_state (Some k, code ta); do s'0 <- promote_step false s' (None, code tb); Some s'0); do r <- result_type st; Some (code r))
        (do s <- scalar_with_dtype tb; torch_result_type (Wrapped s) (Tensor k ta)) = true).
    { intros k [-> | ->].
      - pose proof (all2 (fun ta tb => implb (ordb ta && numb tb) (same (do st <- (do s' <- promote_step false initial_state (Some 0, code ta); do s'0 <- promote_step false s' (None, code tb); Some s'0); do r <- result_type st; Some (code r))
          (do s <- scalar_with_dtype tb; torch_result_type (Wrapped s) (Tensor 0 ta)))) ltac:(vm_compute; reflexivity) ta tb) as H. cbv beta in H. rewrite Oa, Rb in H. exact H.
      - pose proof (all2 (fun ta tb => implb (ordb ta && numb tb) (same (do st <- (do s' <- promote_step false initial_state (Some 1, code ta); do s'0 <- promote_step false s' (None, code tb); Some s'0); do r <- result_type st; Some (code r))
          (do s <- scalar_with_dtype tb; torch_result_type (Wrapped s) (Tensor 1 ta)))) ltac:(vm_compute; reflexivity) ta tb) as H. cbv beta in H. rewrite Oa, Rb in H. exact H. }
    specialize (G (sgn ka) (sgn_cases ka)). destruct (scalar_with_dtype tb); cbn [obind] in *; [rewrite E; destruct (torch_result_type _ _); exact G|exact G].
  - assert (S0 : promote_scalar_scalar ta ta = Some ta) by (apply self_result; exact Oa). rewrite S0. cbn [obind]. unfold promote_scalar_tensor.
    assert (E : forall s, torch_result_type (Wrapped s) (Tensor kb tb) = torch_result_type (Wrapped s) (Tensor (sgn kb) tb)) by (intros; now rewrite result_sgn).
    assert (E' : (do s' <- promote_step false initial_state (None, code ta); do s'0 <- promote_step false s' (Some kb, code tb); Some s'0) =
                (do s' <- promote_step false initial_state (None, code ta); do s'0 <- promote_step false s' (Some (sgn kb), code tb); Some s'0))
      by (destruct (promote_step false initial_state (None, code ta)); cbn [obind]; auto; now rewrite step_sgn by auto).
    rewrite E'. clear E'. apply ordb_iff in Ob. apply numb_iff in Ra.
    assert (G : forall k, k = 0 \/ k = 1 -> same (do st <- (do s' <- promote_step false initial_state (None, code ta); do s'0 <- promote_step false s' (Some k, code tb); Some s'0); do r <- result_type st; Some (code r))
        (do s <- scalar_with_dtype ta; torch_result_type (Wrapped s) (Tensor k tb)) = true).
    { intros k [-> | ->].
      - pose proof (all2 (fun ta tb => implb (ordb tb && numb ta) (same (do st <- (do s' <- promote_step false initial_state (None, code ta); do s'0 <- promote_step false s' (Some 0, code tb); Some s'0); do r <- result_type st; Some (code r))
          (do s <- scalar_with_dtype ta; torch_result_type (Wrapped s) (Tensor 0 tb)))) ltac:(vm_compute; reflexivity) ta tb) as H. cbv beta in H. rewrite Ob, Ra in H. exact H.
      - pose proof (all2 (fun ta tb => implb (ordb tb && numb ta) (same (do st <- (do s' <- promote_step false initial_state (None, code ta); do s'0 <- promote_step false s' (Some 1, code tb); Some s'0); do r <- result_type st; Some (code r))
          (do s <- scalar_with_dtype ta; torch_result_type (Wrapped s) (Tensor 1 tb)))) ltac:(vm_compute; reflexivity) ta tb) as H. cbv beta in H. rewrite Ob, Ra in H. exact H. }
    specialize (G (sgn kb) (sgn_cases kb)). destruct (scalar_with_dtype ta); cbn [obind] in *; [rewrite E; destruct (torch_result_type _ _); exact G|exact G].
  - destruct Ra as [-> | ->], Rb as [-> | ->]; reflexivity.
Qed.
(** ... but not on three: the fold forgets which class a dtype came from. *)
Theorem C50_python_disagrees_on_three_operands_refuted :
  decompose_promote_dtypes [Some 1; Some 0; Some 1] [code Int; code Float; code Half] = Some (code Half) /\
  py_promote_dtypes [Some 1; Some 0; Some 1] [Int; Float; Half] = Some Float /\
  py_promote_dtypes [Some 1; Some 1; Some 0] [Int; Half; Float] = Some Half.
Proof. repeat split; reflexivity. Qed.
(** Dtype predicates of the library. *)
Theorem C50_dtype_predicates : forall t,
  (is_integer_dtype t = true <-> ordinary t /\ category t <= 1) /\ (is_float_dtype t = true <-> ordinary t /\ category t = 2) /\
  (is_complex_dtype t = true <-> ordinary t /\ category t = 3).
Proof.
  intros t. rewrite <- ordb_iff. destruct t; repeat split; vm_compute; intros; intuition (discriminate || congruence).
Qed.
Example C50_nonvacuous : decompose_promote_dtypes [Some 2; None] [code Int; code Double] = Some (code Float) /\
  decompose_promote_dtypes [Some 2; Some 0] [code Half; code Double] = Some (code Half) /\
  decompose_promote_dtypes [None; None] [code Long; code Double] = Some (code Double) /\
  decompose_promote_dtypes [Some 1; Some 0] [code Double; code ComplexFloat] = Some (code ComplexDouble).
Proof. repeat split; reflexivity. Qed.

(** ** C51 *)
Theorem C51_codes_decode : forall t, decode (code t) = Some t.
Proof. exact decode_code. Qed.
Theorem C51_decode_codes : forall c t, decode c = Some t <-> c = code t.
Proof.
  intros c t. split; [|intros ->; apply decode_code]. intros H. unfold decode in H. destruct (Z.ltb_spec c 0); [discriminate|].
  assert (Hn : (Z.to_nat c < length all_scalar_types)%nat) by (apply nth_error_Some; congruence). simpl in Hn.
  assert (G : forall n, (n < 31)%nat -> nth_error all_scalar_types n = Some t -> Z.of_nat n = code t).
  { intros n L E. do 31 (destruct n as [|n]; [simpl in E; injection E as <-; reflexivity|]). lia. }
  rewrite <- (G (Z.to_nat c) Hn H). lia.
Qed.
Theorem C51_element_types_round_trip : forall t m, getTypeForScalarType t = Some m -> getScalarTypeForType m = Some t.
Proof. intros [] m H; simpl in H; try discriminate; injection H as <-; reflexivity. Qed.
Theorem C51_element_types_round_trip_back : forall m t, getScalarTypeForType m = Some t -> getTypeForScalarType t = Some m.
Proof.
  intros m t H. destruct m as [w s|f|c| | | | | | | |]; simpl in H; try discriminate.
  - repeat (let d := fresh "d" in match type of H with context [match ?x with _ => _ end] => is_var x; destruct x as [|d|d] || destruct x as [d|d|] || destruct x end; try discriminate);
      injection H as <-; reflexivity.
  - destruct f; injection H as <-; reflexivity.
  - destruct c as [ | [] | | | | | | | | |]; try discriminate; injection H as <-; reflexivity.
  - injection H as <-; reflexivity.
  - injection H as <-; reflexivity.
  - injection H as <-; reflexivity.
  - injection H as <-; reflexivity.
Qed.
(** Compiler dtypes with an element type: all but the bit types and the sub-byte quantized ones. *)
Theorem C51_element_types_domain : forall t, getTypeForScalarType t = None <->
  In t [QUInt4x2; QUInt2x4; Bits1x8; Bits2x4; Bits4x2; Bits8; Bits16; Undefined].
Proof. intros []; simpl; split; intros H; try discriminate; try tauto; repeat (destruct H as [H|H]; try discriminate); contradiction. Qed.
(** The code the importer emits decodes to the element type the importer uses, except for complex32 and complex64. *)
Theorem C51_importer_codes_agree_partial : forall d c, TORCH_DTYPE_TO_INT d = Some c -> d <> t_complex32 -> d <> t_complex64 ->
  exists t, decode c = Some t /\ getTypeForScalarType t = Some (TORCH_DTYPE_TO_MLIR_TYPE_ASM d).
Proof. intros d c H N1 N2. destruct d; simpl in H; try discriminate; injection H as <-; try (now elim N1); try (now elim N2); eexists; split; reflexivity. Qed.
Theorem C51_complex_codes_refuted :
  (exists c t, TORCH_DTYPE_TO_INT t_complex32 = Some c /\ decode c = Some t /\ getTypeForScalarType t = Some (TORCH_DTYPE_TO_MLIR_TYPE_ASM t_complex64)) /\
  (exists c t, TORCH_DTYPE_TO_INT t_complex64 = Some c /\ decode c = Some t /\ getTypeForScalarType t = Some (TORCH_DTYPE_TO_MLIR_TYPE_ASM t_complex128)) /\
  TORCH_DTYPE_TO_INT t_complex128 = None.
Proof. split; [|split]; [do 2 eexists; split; [reflexivity|]; split; reflexivity..|reflexivity]. Qed.
Theorem C51_codes_distinct : forall d d' c, TORCH_DTYPE_TO_INT d = Some c -> TORCH_DTYPE_TO_INT d' = Some c -> d = d'.
Proof. intros [] [] c; simpl; congruence. Qed.
Theorem C51_codes_missing : forall d, TORCH_DTYPE_TO_INT d = None <-> In d [t_complex128; t_qint8; t_quint8].
Proof. intros []; simpl; split; intros H; try discriminate; try tauto; repeat (destruct H as [H|H]; try discriminate); contradiction. Qed.
(** Tensor types and literals use the same element type, except for the quantized dtypes. *)
Theorem C51_literal_types_agree : forall d, TORCH_DTYPE_TO_MLIR_TYPE d = TORCH_DTYPE_TO_MLIR_TYPE_ASM d <-> d <> t_qint8 /\ d <> t_quint8.
Proof. intros []; simpl; split; intros; try reflexivity; try discriminate; try (split; discriminate); destruct H as [A B]; [now elim A|now elim B]. Qed.
Theorem C51_quantized_literals_are_storage_integers :
  TORCH_DTYPE_TO_MLIR_TYPE t_qint8 = TORCH_DTYPE_TO_MLIR_TYPE_ASM t_int8 /\ TORCH_DTYPE_TO_MLIR_TYPE t_quint8 = TORCH_DTYPE_TO_MLIR_TYPE_ASM t_uint8.
Proof. split; reflexivity. Qed.
(** A Python number becomes a tensor of the default dtype of its kind, and a builtin scalar of its full width. *)
Theorem C51_python_numbers : forall m,
  (forall d, getDefaultDtypeForTorchScalar m = Some d <->
     (m = TorchFloatT /\ getScalarTypeForType d = Some Float) \/ (m = TorchIntT /\ getScalarTypeForType d = Some Long) \/
     (m = TorchBoolT /\ getScalarTypeForType d = Some Bool)) /\
  (forall d, getBuiltInTypeForTorchScalar m = Some d <->
     (m = TorchFloatT /\ getScalarTypeForType d = Some Double) \/ (m = TorchIntT /\ getScalarTypeForType d = Some Long) \/
     (m = TorchBoolT /\ getScalarTypeForType d = Some Bool)).
Proof.
  intros m. split; intros d; split.
  - destruct m; intros [= <-]; auto.
  - intros [[-> H]|[[-> H]|[-> H]]]; apply C51_element_types_round_trip_back in H; exact H.
  - destruct m; intros [= <-]; auto.
  - intros [[-> H]|[[-> H]|[-> H]]]; apply C51_element_types_round_trip_back in H; exact H.
Qed.
Theorem C51_importer_types_known : forall d, exists t, getScalarTypeForType (TORCH_DTYPE_TO_MLIR_TYPE_ASM d) = Some t.
Proof. intros []; eexists; reflexivity. Qed.
Theorem C51_importer_types_distinct : forall d d', TORCH_DTYPE_TO_MLIR_TYPE_ASM d = TORCH_DTYPE_TO_MLIR_TYPE_ASM d' -> d = d'.
Proof. intros [] []; simpl; congruence. Qed.
Theorem C51_memory_formats_agree : forall m, memory_format_of_code (TORCH_MEMORY_FORMAT_TO_INT m) = Some m.
Proof. intros []; reflexivity. Qed.
(** Layouts agree up to CSR; the code of CSC is the compiler's code of mkldnn. *)
Theorem C51_layouts_agree_partial : forall l, In l [Strided; Sparse; SparseCsr] ->
  exists c, TORCH_LAYOUT_TO_INT l = Some c /\ layout_of_code c = Some l.
Proof. intros l H. simpl in H. repeat (destruct H as [<- |H]); try contradiction; eexists; split; reflexivity. Qed.
Theorem C51_layout_codes_refuted : TORCH_LAYOUT_TO_INT SparseCsc = Some 3 /\ layout_of_code 3 = Some Mkldnn /\
  (forall l c, In l [SparseBsr; SparseBsc] -> TORCH_LAYOUT_TO_INT l = Some c -> layout_of_code c = None).
Proof. split; [reflexivity|]. split; [reflexivity|]. intros l c H E. simpl in H. repeat (destruct H as [<- |H]); try contradiction; injection E as <-; reflexivity. Qed.
Example C51_nonvacuous : TORCH_DTYPE_TO_INT t_bfloat16 = Some (code BFloat16) /\ TORCH_DTYPE_TO_INT t_float4_e2m1fn_x2 = Some (code Float4_e2m1fn_x2).
Proof. split; reflexivity. Qed.

Print Assumptions C48_promotion_is_least_upper_bound.
Print Assumptions C48_list_promotion_order_irrelevant.
Print Assumptions C49_self_promotion_exact.
Print Assumptions C50_promote_dtypes_spec.
Print Assumptions C50_python_agrees_on_two_operands.
Print Assumptions C51_importer_codes_agree_partial.
