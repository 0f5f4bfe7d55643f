(** ReduceOpVariants: what the pass keeps and what it leaves. *)
From Coq Require Import Bool Ascii String PeanoNat Lia List.
From Verif Require Import Prelude ReduceModel ReduceSpec ReduceProofs ReduceExpand ReduceConvert.
Import ListNotations.
Open Scope nat_scope.

Section Meaning.
Context {content thing : Type} (tr : traits) (w : world content thing) (T : good_traits tr).
(** The new program does what the old one does: it returns the same values, and leaves the same contents in every object *)
Theorem C125_meaning l ret start n l' ret' e m e2 m2 :
  well_formed l start n -> starts start e m -> keeps_lists w l -> reduce tr l ret n = Some (l', ret') -> run tr w l e m = Some (e2, m2) ->
  exists e2' m2', run tr w l' e m = Some (e2', m2') /\ (forall xs, mapM (fun v => e2 (fst v)) ret = Some xs -> mapM (fun v => e2' (fst v)) ret' = Some xs)
    /\ forall a, a < n -> ~ In a (dropped l) -> m2' a = m2 a.
Proof.
  intros W (I1 & I2 & I3) KL H Ro. unfold reduce in H.
  change (fun v : value => negb (mentioned l ret v)) with (unmentioned l ret) in H.
  destruct (expand_all tr (unmentioned l ret) l [] n) as [[[l1 s] n1]|] eqn:X; [|discriminate]. cbn [obind] in H.
  destruct (convert_all tr l1 l1 n1) as [[l2 n2]|] eqn:Cv; [|discriminate]. cbn in H. injection H as <- <-.
  assert (Sl : forall i, In i start -> i < n /\ ~ In i (numbers l)).
  { intros i Ii. destruct W as [D F]. rewrite Forall_forall in F. split; [apply F; apply in_or_app; left; exact Ii|]. destruct (NoDup_app_inv _ _ _ D) as (_ & _ & D3). exact (D3 i Ii). }
  assert (Sk : forall i, In i start -> kept l n i). { intros i Ii. destruct (Sl i Ii) as [Z1 Z2]. split; [exact Z1|]. intros Z. apply Z2. apply dropped_in. exact Z. }
  assert (Bx : forall x : rt content thing, below (fun a => In a start) x -> below (kept l n) x) by (intros [c|a|y] Z; try exact Logic.I; apply Sk; exact Z).
  assert (R0 : related l ret start n [] [] n e m e m).
  { constructor.
    - intros a _. reflexivity.
    - intros a items Ka Ma. assert (Ia : In a start) by (apply I2; rewrite Ma; discriminate). specialize (I3 a items Ia Ma). apply Forall_forall. intros x Ix. apply Bx. exact (proj1 (Forall_forall _ _) I3 x Ix).
    - intros i x _ Hx. unfold look. cbn. split; [exact Hx|]. apply Bx. exact (proj2 (I1 i x Hx)).
    - intros i Hi. destruct (e i) as [x|] eqn:Ei; [|contradiction]. apply in_or_app. left. exact (proj1 (I1 i x Ei)).
    - intros p [].
    - lia. }
  destruct (expand_all_run tr w T l ret start n W l [] [] n l1 s n1 e m e m e2 m2 eq_refl X R0 Ro) as (e1 & m1 & R1 & Rel).
  assert (Dn : NoDup (numbers l) /\ forall k, In k (numbers l) -> k < n).
  { destruct W as [D F]. destruct (NoDup_app_inv _ _ _ D) as (_ & D2 & _). split; [exact D2|]. intros k Ik. rewrite Forall_forall in F. apply F. apply in_or_app. right. exact Ik. }
  destruct (expand_all_numbers tr (unmentioned l ret) l [] n l1 s n1 X (proj1 Dn) (proj2 Dn)) as (G & N1 & C1).
  assert (W1 : well_formed l1 start n1).
  { destruct W as [D F]. destruct (NoDup_app_inv _ _ _ D) as (D1 & _ & _). split.
    - apply NoDup_app_intro; [exact D1|exact N1|]. intros k K1 K2. destruct (Sl k K1) as [Z1 Z2]. destruct (C1 k K2) as [Z|Z]; [exact (Z2 Z)|lia].
    - apply Forall_app. split; apply Forall_forall; intros k Ik; [destruct (Sl k Ik); lia|]. destruct (C1 k Ik) as [Z|Z]; [pose proof (proj2 Dn k Z); lia|lia]. }
  assert (KL1 : forall name rs args, In (Aten name rs args) l1 -> value_semantics tr name = true \/
    forall xs m ys m1, other w name (map fst rs) xs m = Some (ys, m1) -> forall a items, m a = Some (Items items) -> ~ In a (map fst rs) -> m1 a = Some (Items items)).
  { intros name rs args Ia. destruct (expand_all_atens tr (unmentioned l ret) l [] n l1 s n1 T X _ _ _ Ia) as [V|(args' & V)]; [left; exact V|right]. exact (KL _ _ _ V). }
  assert (St : state start n1 [] e m).
  { assert (Bl : forall x : rt content thing, below (fun a => In a start) x -> below (low n1) x) by (intros [c|a|y] Z; try exact Logic.I; destruct (Sl a Z); cbn; unfold low; lia).
    constructor.
    - intros a items _ Ma. assert (Ia : In a start) by (apply I2; rewrite Ma; discriminate). specialize (I3 a items Ia Ma). apply Forall_forall. intros x Ix. apply Bl. exact (proj1 (Forall_forall _ _) I3 x Ix).
    - intros i x Hx. destruct (I1 i x Hx) as [Z1 Z2]. split; [apply in_or_app; left; exact Z1|apply Bl; exact Z2].
    - intros a Ha. apply in_or_app. left. exact (I2 a Ha).
    - intros r els [].
    - intros r u []. }
  destruct (convert_all_run tr w l1 start n1 W1 KL1 l1 [] n1 l2 n2 e m e1 m1 e m eq_refl St Cv (le_n _) (conj (fun _ _ z => z) (fun _ _ => eq_refl)) R1) as (e2' & m2' & R2 & [Ov1 Ov2]).
  exists e2', m2'. split; [exact R2|]. split.
  - intros xs Q. apply (mapM_rel (fun v : value => e2 (fst v)) (fun v : value => e2' (fst v)) (rename s) ret xs Q). intros v x Iv Hx.
    apply Ov1. rewrite rename_fst. apply (r_env _ _ _ _ _ _ _ _ _ _ _ Rel); [|exact Hx]. unfold used. apply in_map. apply in_or_app. right. exact Iv.
  - intros a Ba Na. rewrite (Ov2 a ltac:(unfold low; lia)). apply (r_agree _ _ _ _ _ _ _ _ _ _ _ Rel). split; assumption.
Qed.
End Meaning.

(** ** What is left *)
Lemma typed_rename s o : typed_op (rename_op s o) <-> typed_op o.
Proof. destruct o; cbn; rewrite ?rename_snd; tauto. Qed.
Lemma overwrite_typed v t k os k' : overwrite_contents v t k = Some (os, k') -> (exists i, snd v = VT i) -> Forall typed_op os.
Proof.
  unfold overwrite_contents. destruct t as [t tt]. cbn [snd]. destruct tt as [j| | | | |]; try discriminate. intros H (i & Hv). destruct (ty_eqb (snd v) (VT j)) eqn:Q; injection H as <- _.
  - apply ty_eqb_eq in Q. repeat constructor. exists j. split; [exact Q|reflexivity].
  - repeat constructor. exists j. split; reflexivity.
Qed.
Section Left.
Context (tr : traits) (T : good_traits tr).
Lemma expand_typed unused o next os s' next' : expand tr unused o next = Some (os, s', next') -> typed_op o -> Forall typed_op os.
Proof.
  intros H Ho. assert (Keep : [o] = os -> Forall typed_op os) by (intros <-; constructor; [exact Ho|constructor]).
  destruct o as [name rs args|name rs args|r l|r v|r v|r v|r v|v t|r k i|r k|r b|r|r v|r v d|r args]; cbn [expand] in H;
    try (injection H as H1 _ H2; exact (Keep H1)).
  - destruct (value_semantics tr name); [injection H as H1 _ H2; exact (Keep H1)|]. destruct (in_place tr name); [|injection H as H1 _ H2; exact (Keep H1)].
    destruct (no_underscore name) as [name'|]; [|discriminate]. cbn [obind] in H. destruct rs as [|r [|]]; try discriminate. destruct args as [|self args]; try discriminate.
    destruct (snd r) as [i| | | | |] eqn:Tr; try discriminate. destruct (overwrite_contents (5 + next, VT i) self (6 + next)) as [[os1 n1]|] eqn:Eo; [|discriminate]. cbn [obind] in H. injection H as <- _ _.
    repeat (constructor; [try exact Logic.I; exists i; split; reflexivity|]). apply (overwrite_typed _ _ _ _ _ Eo). exists i. reflexivity.
  - destruct (text_eqb name flash).
    + destruct rs as [|r0 [|r1 [|]]]; try discriminate. destruct args as [|q [|kk [|v [|dd [|cc [|mm [|ss more]]]]]]]; try discriminate. destruct (unused r1); [|discriminate]. injection H as <- _ _. repeat constructor.
    + destruct (in_library tr name); [|discriminate]. injection H as H1 _ H2. exact (Keep H1).
  - destruct (snd r) as [j| | | | |] eqn:Tr; try discriminate. assert (Tn : forall a, typed_op (ToNon r (a, VT j))) by (intros a; exists j; split; [reflexivity|exact Tr]).
    destruct (i =? j); injection H as <- _ _; [constructor; [exact Logic.I|]; constructor; [apply Tn|constructor]|]. constructor; [exact Logic.I|]. constructor; [exact Logic.I|]. constructor; [apply Tn|constructor].
  - destruct args as [|self args]; try discriminate. destruct (snd r) as [i| | | | |] eqn:Tr; try discriminate.
    destruct (overwrite_contents (S next, VT i) self (2 + next)) as [[os1 n1]|] eqn:Eo; [|discriminate]. cbn [obind] in H. injection H as <- _ _.
    constructor; [exact Logic.I|]. constructor; [exists i; split; reflexivity|]. apply (overwrite_typed _ _ _ _ _ Eo). exists i. reflexivity.
Qed.
Lemma expand_all_typed unused : forall l s next l1 s1 next1, expand_all tr unused l s next = Some (l1, s1, next1) -> Forall typed_op l -> Forall typed_op l1.
Proof.
  induction l as [|o l IH]; intros s next l1 s1 next1; cbn [expand_all].
  - intros [= <- _ _] _. constructor.
  - intros H F. inversion F as [|? ? Ho Fl]; subst. destruct (expand tr unused o next) as [[[os s'] n1]|] eqn:E; [|discriminate]. cbn [obind] in H.
    destruct (expand_all tr unused l _ n1) as [[[rest s2] n2]|] eqn:E2 in H; [|discriminate]. cbn [obind] in H. injection H as <- _ _.
    apply Forall_app. split; [|exact (IH _ _ _ _ _ E2 Fl)]. apply Forall_forall. intros o1 I1. apply in_map_iff in I1. destruct I1 as (o2 & <- & I1). apply typed_rename. exact (proj1 (Forall_forall _ _) (expand_typed _ _ _ _ _ _ E Ho) o2 I1).
Qed.
Lemma copy_elements_typed : forall els next os vs next', copy_elements els next = (os, vs, next') -> Forall typed_op os /\ Forall (fun o => exists r v, o = ToVal r v) os.
Proof.
  induction els as [|v els IH]; intros next os vs next' H; cbn [copy_elements] in H; [injection H as <- _ _; split; constructor|].
  destruct (snd v) as [i| | | | |] eqn:Tv;
    try (destruct (copy_elements els next) as [[os0 vs0] n0] eqn:C0; injection H as <- _ _; exact (IH _ _ _ _ C0)).
  destruct (copy_elements els (S next)) as [[os0 vs0] n0] eqn:C0. injection H as <- _ _. destruct (IH _ _ _ _ C0) as [X Y]. split; constructor; try assumption; [exists i; split; [exact Tv|reflexivity]|]. eexists; eexists; reflexivity.
Qed.
Definition mover (o : op) : Prop := match o with ToVal _ _ | ToNon _ _ | ListC _ _ | Deref _ _ => True | _ => False end.
Lemma not_direct v : is_non_value (snd v) = false <-> ~ direct v.
Proof. unfold direct. destruct (snd v); cbn; split; try discriminate; try (intros _ (i & Hi); discriminate Hi); try reflexivity. intros H. exfalso. apply H. eexists. reflexivity. Qed.
Lemma valued_iff : forall t t', with_value_semantics t = Some t' <-> valued t t'.
Proof.
  induction t as [i|i|t IH|t IH| |i]; intros t'; cbn [with_value_semantics]; split; intros H; try discriminate; try (inversion H; subst; fail).
  - injection H as <-. constructor.
  - inversion H; reflexivity.
  - destruct (with_value_semantics t) as [u|] eqn:E; [|discriminate]. cbn in H. injection H as <-. constructor. apply IH. reflexivity.
  - inversion H as [|? u Hu|]; subst. apply IH in Hu. rewrite Hu. reflexivity.
  - destruct (with_value_semantics t) as [u|] eqn:E; [|discriminate]. cbn in H. injection H as <-. constructor. apply IH. reflexivity.
  - inversion H as [| |? u Hu]; subst. apply IH in Hu. rewrite Hu. reflexivity.
Qed.
Lemma convert_operand_left defs v next os v' next' : convert_operand defs v next = Some (os, v', next') -> Forall typed_op os /\ Forall mover os /\ ~ direct v'.
Proof.
  unfold convert_operand. assert (Keep : ~ direct v -> [] = os -> v = v' -> Forall typed_op os /\ Forall mover os /\ ~ direct v') by (intros D <- <-; split; [constructor|]; split; [constructor|exact D]).
  destruct v as [v tv]. cbn [snd]. destruct tv as [i|i|t|t| |i]; intros H; try (injection H as H1 H2 _; apply Keep; try assumption; intros (j & Hj); discriminate Hj).
  - injection H as <- <- _. split; [repeat constructor; exists i; split; reflexivity|]. split; [repeat constructor|]. intros (j & Hj). discriminate Hj.
  - destruct (match t with NT _ | OptT _ => true | _ => false end); [|injection H as H1 H2 _; apply Keep; try assumption; intros (j & Hj); discriminate Hj].
    destruct (defining defs (v, ListT t)) as [o|]; [|discriminate]. destruct o as [| |r0 els| | | | | | | | | | | |]; try discriminate.
    destruct els as [|el els0] eqn:Els; [injection H as H1 H2 _; apply Keep; try assumption; intros (j & Hj); discriminate Hj|]. rewrite <- Els in *. clear Els el els0.
    destruct (match t with OptT _ => forallb (fun u => tensor_or_none (snd u)) els | _ => true end); [|discriminate]. cbn [guard obind] in H.
    destruct (copy_elements els next) as [[os0 vs] n1] eqn:Ce. cbn [with_value_semantics] in H. destruct (with_value_semantics t) as [t'|] eqn:Wt; [|discriminate]. cbn [obind] in H. injection H as <- <- _.
    destruct (copy_elements_typed _ _ _ _ _ Ce) as [X Y]. split; [apply Forall_app; split; [exact X|repeat constructor]|]. split.
    + apply Forall_app. split; [|repeat constructor]. apply Forall_forall. intros o I1. destruct (proj1 (Forall_forall _ _) Y o I1) as (r & u & ->). exact Logic.I.
    + intros (j & Hj). discriminate Hj.
  - destruct t as [i|i|t|t| |i]; try (injection H as H1 H2 _; apply Keep; try assumption; intros (j & Hj); discriminate Hj).
    destruct (defining defs (v, OptT (NT i))) as [o|]; [|discriminate]. destruct o as [| | |r0 u| | | | | | | | | | |]; try discriminate.
    destruct (snd u) as [j|j|t|t| |j] eqn:Tu; try (injection H as H1 H2 _; apply Keep; try assumption; intros (j' & Hj); discriminate Hj). injection H as <- <- _.
    split; [repeat constructor; exists j; split; [exact Tu|reflexivity]|]. split; [repeat constructor|]. intros (j' & Hj). discriminate Hj.
Qed.
Lemma convert_operands_left defs : forall l next os l' next', convert_operands defs l next = Some (os, l', next') -> Forall typed_op os /\ Forall mover os /\ Forall (fun v => ~ direct v) l'.
Proof.
  induction l as [|v l IH]; intros next os l' next' H; cbn [convert_operands] in H; [injection H as <- <- _; repeat split; constructor|].
  destruct (convert_operand defs v next) as [[[os1 v1] n1]|] eqn:C1; [|discriminate]. cbn [obind] in H. destruct (convert_operands defs l n1) as [[[os2 vs2] n2]|] eqn:C2; [|discriminate]. cbn in H. injection H as <- <- _.
  destruct (convert_operand_left _ _ _ _ _ _ C1) as (X1 & X2 & X3). destruct (IH _ _ _ _ C2) as (Y1 & Y2 & Y3). split; [apply Forall_app; split; assumption|]. split; [apply Forall_app; split; assumption|constructor; assumption].
Qed.
Lemma convert_results_left : forall rs next rs' os next', convert_results rs next = (rs', os, next') -> Forall typed_op os /\ Forall mover os /\ Forall (fun v => ~ direct v) rs'.
Proof.
  induction rs as [|r rs IH]; intros next rs' os next' H; cbn [convert_results] in H; [injection H as <- <- _; repeat split; constructor|].
  destruct (snd r) as [i| | | | |] eqn:Tr;
    try (destruct (convert_results rs next) as [[rs0 os0] n0] eqn:C0; injection H as <- <- _; destruct (IH _ _ _ _ C0) as (X1 & X2 & X3); split; [exact X1|]; split; [exact X2|]; constructor; [|exact X3]; intros (j & Hj); rewrite Tr in Hj; discriminate Hj).
  destruct (convert_results rs (S next)) as [[rs0 os0] n0] eqn:C0. injection H as <- <- _. destruct (IH _ _ _ _ C0) as (X1 & X2 & X3). split; [constructor; [exists i; split; [reflexivity|exact Tr]|exact X1]|].
  split; [constructor; [exact Logic.I|exact X2]|]. constructor; [|exact X3]. intros (j & Hj). discriminate Hj.
Qed.
Lemma convert_op_left defs build rs args next os next' : convert_op defs build rs args next = Some (os, next') ->
  exists pre post rs' args', os = pre ++ build rs' args' :: post /\ Forall typed_op (pre ++ post) /\ Forall mover (pre ++ post) /\ Forall (fun v => ~ direct v) (args' ++ rs').
Proof.
  unfold convert_op. destruct (legal rs args) eqn:L.
  - intros [= <- _]. exists [], [], rs, args. split; [reflexivity|]. split; [constructor|]. split; [constructor|]. apply Forall_forall. intros v I1. apply not_direct. unfold legal in L. rewrite forallb_forall in L. specialize (L v I1). apply negb_true_iff in L. exact L.
  - destruct (convert_operands defs args next) as [[[before args'] n1]|] eqn:Ca; [|discriminate]. cbn [obind]. destruct (convert_results rs n1) as [[rs' af] n2] eqn:Cr. intros [= <- _].
    destruct (convert_operands_left _ _ _ _ _ _ Ca) as (X1 & X2 & X3). destruct (convert_results_left _ _ _ _ _ Cr) as (Y1 & Y2 & Y3).
    exists before, af, rs', args'. split; [reflexivity|]. split; [apply Forall_app; split; assumption|]. split; apply Forall_app; split; assumption.
Qed.
Definition expanded (o : op) : Prop :=
  match o with
  | Aten name _ _ => value_semantics tr name = false -> in_place tr name = false
  | Operator name _ _ => in_library tr name = true
  | NLit _ _ _ | Bernoulli _ _ => False
  | _ => True
  end.
Lemma overwrite_expanded v t k os k' : overwrite_contents v t k = Some (os, k') -> Forall expanded os.
Proof. unfold overwrite_contents. destruct (snd t); try discriminate. destruct (ty_eqb (snd v) (VT info)); intros [= <- _]; repeat constructor. Qed.
Lemma expanded_rename s o : expanded (rename_op s o) <-> expanded o.
Proof. destruct o; cbn; tauto. Qed.
Lemma expand_expanded unused o next os s' next' : expand tr unused o next = Some (os, s', next') -> Forall expanded os.
Proof.
  intros H. assert (Keep : expanded o -> [o] = os -> Forall expanded os) by (intros Ho <-; constructor; [exact Ho|constructor]).
  destruct o as [name rs args|name rs args|r l|r v|r v|r v|r v|v t|r k i|r k|r b|r|r v|r v d|r args]; cbn [expand] in H;
    try (injection H as H1 _ H2; exact (Keep Logic.I H1)).
  - destruct (value_semantics tr name) eqn:V; [injection H as H1 _ H2; apply Keep; [cbn; congruence|exact H1]|]. destruct (in_place tr name) eqn:Ip; [|injection H as H1 _ H2; apply Keep; [cbn; intros _; exact Ip|exact H1]].
    destruct (proj1 T name Ip V) as (name' & F & V'). rewrite (functional_name _ _ F) in H. cbn [obind] in H. destruct rs as [|r [|]]; try discriminate. destruct args as [|self args]; try discriminate.
    destruct (snd r) as [i| | | | |] eqn:Tr; try discriminate. destruct (overwrite_contents (5 + next, VT i) self (6 + next)) as [[os1 n1]|] eqn:Eo; [|discriminate]. cbn [obind] in H. injection H as <- _ _.
    constructor; [cbn; congruence|]. repeat (constructor; [exact Logic.I|]). exact (overwrite_expanded _ _ _ _ _ Eo).
  - destruct (text_eqb name flash).
    + destruct rs as [|r0 [|r1 [|]]]; try discriminate. destruct args as [|q [|kk [|v [|dd [|cc [|mm [|ss more]]]]]]]; try discriminate. destruct (unused r1); [|discriminate]. injection H as <- _ _.
      constructor; [exact Logic.I|]. constructor; [|constructor]. cbn. intros Z. exfalso. pose proof (proj2 (proj2 T)) as Z2. assert (Z3 : true = false) by (etransitivity; [symmetry; exact Z2|exact Z]). discriminate Z3.
    + destruct (in_library tr name) eqn:Il; [|discriminate]. injection H as H1 _ H2. apply Keep; [exact Il|exact H1].
  - destruct (snd r) as [j| | | | |] eqn:Tr; try discriminate. destruct (i =? j); injection H as <- _ _; repeat (constructor; [exact Logic.I|]); constructor.
  - destruct args as [|self args]; try discriminate. destruct (snd r) as [i| | | | |] eqn:Tr; try discriminate.
    destruct (overwrite_contents (S next, VT i) self (2 + next)) as [[os1 n1]|] eqn:Eo; [|discriminate]. cbn [obind] in H. injection H as <- _ _.
    constructor; [cbn; intros Z; exfalso; pose proof (proj1 (proj2 T)) as Z2; assert (Z3 : true = false) by (etransitivity; [symmetry; exact Z2|exact Z]); discriminate Z3|]. constructor; [exact Logic.I|]. exact (overwrite_expanded _ _ _ _ _ Eo).
Qed.
Lemma expand_all_expanded unused : forall l s next l1 s1 next1, expand_all tr unused l s next = Some (l1, s1, next1) -> Forall expanded l1.
Proof.
  induction l as [|o l IH]; intros s next l1 s1 next1; cbn [expand_all].
  - intros [= <- _ _]. constructor.
  - intros H. destruct (expand tr unused o next) as [[[os s'] n1]|] eqn:E; [|discriminate]. cbn [obind] in H.
    destruct (expand_all tr unused l _ n1) as [[[rest s2] n2]|] eqn:E2 in H; [|discriminate]. cbn [obind] in H. injection H as <- _ _.
    apply Forall_app. split; [|exact (IH _ _ _ _ _ E2)]. apply Forall_forall. intros o1 I1. apply in_map_iff in I1. destruct I1 as (o2 & <- & I1). apply expanded_rename. exact (proj1 (Forall_forall _ _) (expand_expanded _ _ _ _ _ _ E) o2 I1).
Qed.
Lemma convert_left defs o next os next' : convert tr defs o next = Some (os, next') -> expanded o -> Forall (done_op tr) os /\ (typed_op o -> Forall typed_op os).
Proof.
  assert (Keep : done_op tr o -> [o] = os -> Forall (done_op tr) os /\ (typed_op o -> Forall typed_op os)) by (intros D <-; split; [constructor; [exact D|constructor]|intros Ht; constructor; [exact Ht|constructor]]).
  assert (Mv : forall l, Forall mover l -> Forall (done_op tr) l) by (intros l F; apply Forall_forall; intros o1 I1; pose proof (proj1 (Forall_forall _ _) F o1 I1) as M; destruct o1; try contradiction; exact Logic.I).
  intros H Ex. destruct o as [name rs args|name rs args|r l|r v|r v|r v|r v|v t|r k i|r k|r b|r|r v|r v d|r args]; cbn [convert expanded] in *; try contradiction;
    try (injection H as H1 _; exact (Keep Logic.I H1)).
  - destruct (value_semantics tr name) eqn:V.
    + destruct (convert_op_left _ _ _ _ _ _ _ H) as (pre & post & rs' & args' & -> & X1 & X2 & X3). apply Forall_app in X1. apply Forall_app in X2. split.
      * apply Forall_app. split; [apply Mv; tauto|]. constructor; [|apply Mv; tauto]. cbn. split; [intros _ v Iv; exact (proj1 (Forall_forall _ _) X3 v Iv)|congruence].
      * intros _. apply Forall_app. split; [tauto|]. constructor; [exact Logic.I|tauto].
    + injection H as H1 _. apply Keep; [|exact H1]. cbn. split; [congruence|intros _; exact (Ex eq_refl)].
  - rewrite Ex in H. destruct (convert_op_left _ _ _ _ _ _ _ H) as (pre & post & rs' & args' & -> & X1 & X2 & X3). apply Forall_app in X1. apply Forall_app in X2. split.
    + apply Forall_app. split; [apply Mv; tauto|]. constructor; [|apply Mv; tauto]. cbn. split; [exact Ex|]. intros v Iv. exact (proj1 (Forall_forall _ _) X3 v Iv).
    + intros _. apply Forall_app. split; [tauto|]. constructor; [exact Logic.I|tauto].
Qed.
Lemma convert_all_left defs : forall l next l2 next', convert_all tr defs l next = Some (l2, next') -> Forall expanded l -> Forall (done_op tr) l2 /\ (Forall typed_op l -> Forall typed_op l2).
Proof.
  induction l as [|o l IH]; intros next l2 next' H F; cbn [convert_all] in H; [injection H as <- _; split; [constructor|intros _; constructor]|]. inversion F as [|? ? Ho Fl]; subst.
  destruct (convert tr defs o next) as [[os n1]|] eqn:C1; [|discriminate]. cbn [obind] in H. destruct (convert_all tr defs l n1) as [[rest n2]|] eqn:C2; [|discriminate]. cbn in H. injection H as <- _.
  destruct (convert_left _ _ _ _ _ C1 Ho) as [X Y]. destruct (IH _ _ _ C2 Fl) as [X2 Y2]. split; [apply Forall_app; split; assumption|]. intros Ft. inversion Ft as [|? ? Ht Htl]; subst. apply Forall_app. split; [exact (Y Ht)|exact (Y2 Htl)].
Qed.
(** After the pass, operations that work on values get and give no tensor in memory directly, and nothing works in place; copies and overwritings have the right types *)
Theorem C125_done l ret n l' ret' : reduce tr l ret n = Some (l', ret') -> Forall (done_op tr) l' /\ (Forall typed_op l -> Forall typed_op l').
Proof.
  unfold reduce. intros H. destruct (expand_all tr _ l [] n) as [[[l1 s] n1]|] eqn:X in H; [|discriminate]. cbn [obind] in H.
  destruct (convert_all tr l1 l1 n1) as [[l2 n2]|] eqn:Cv; [|discriminate]. cbn in H. injection H as <- _.
  destruct (convert_all_left _ _ _ _ _ Cv (expand_all_expanded _ _ _ _ _ _ _ X)) as [Y1 Y2]. split; [exact Y1|]. intros F. exact (Y2 (expand_all_typed _ _ _ _ _ _ _ X F)).
Qed.
(** An operation that works on values and has no tensor in memory among its operands and results is left as it is, whatever is in its lists and optionals *)
Theorem C125_left defs name rs args next : value_semantics tr name = true -> (forall v, In v (args ++ rs) -> ~ direct v) -> convert tr defs (Aten name rs args) next = Some ([Aten name rs args], next).
Proof.
  intros V H. cbn [convert]. rewrite V. unfold convert_op. assert (L : legal rs args = true). { unfold legal. apply forallb_forall. intros v I1. apply negb_true_iff. apply not_direct. exact (H v I1). } rewrite L. reflexivity.
Qed.
(** Which operands can be made values *)
Theorem C125_operands defs l next : (exists r, convert_operands defs l next = Some r) <-> Forall (convertible defs) l.
Proof.
  assert (One : forall v next, (exists r, convert_operand defs v next = Some r) <-> convertible defs v).
  { intros v k. unfold convert_operand, convertible. destruct (snd v) as [i|i|t|t| |i]; try (split; [intros _; exact Logic.I|intros _; eexists; reflexivity]).
    - destruct t as [i|i|t|t| |i]; try (split; [intros _; exact Logic.I|intros _; eexists; reflexivity]).
      + split.
        * intros [r H]. destruct (defining defs v) as [o|]; [|discriminate]. destruct o; try discriminate. eexists; eexists; reflexivity.
        * intros (r & els & ->). destruct els as [|u els]; [eexists; reflexivity|]. cbn [guard obind]. destruct (copy_elements (u :: els) k) as [[os vs] n1]. cbn. eexists; reflexivity.
      + split.
        * intros [r H]. destruct (defining defs v) as [o|]; [|discriminate]. destruct o as [| |r0 els| | | | | | | | | | | |]; try discriminate. exists r0, els. split; [reflexivity|]. destruct els as [|u els]; [left; reflexivity|right].
          destruct (forallb (fun u => tensor_or_none (snd u)) (u :: els)) eqn:Fb; [|discriminate]. cbn [guard obind] in H. destruct (copy_elements (u :: els) k) as [[os vs] n1]. cbn [with_value_semantics] in H. destruct (with_value_semantics t) as [t'|] eqn:Wt; [|discriminate].
          split; [exists t'; apply valued_iff; exact Wt|]. intros z Iz. rewrite forallb_forall in Fb. specialize (Fb z Iz). unfold direct. destruct (snd z); try discriminate; [left; eexists; reflexivity|right; reflexivity].
        * intros (r & els & -> & [->|[(t' & Ht) Hels]]); [eexists; reflexivity|]. destruct els as [|u els]; [eexists; reflexivity|].
          assert (Fb : forallb (fun u => tensor_or_none (snd u)) (u :: els) = true). { apply forallb_forall. intros z Iz. destruct (Hels z Iz) as [(i & Hi)|Hi]; rewrite Hi; reflexivity. }
          rewrite Fb. cbn [guard obind]. destruct (copy_elements (u :: els) k) as [[os vs] n1]. cbn [with_value_semantics]. apply valued_iff in Ht. rewrite Ht. cbn. eexists; reflexivity.
    - destruct t as [i|i|t|t| |i]; try (split; [intros _; exact Logic.I|intros _; eexists; reflexivity]). split.
      + intros [r H]. destruct (defining defs v) as [o|]; [|discriminate]. destruct o; try discriminate. eexists; eexists; reflexivity.
      + intros (r & u & ->). destruct (snd u); eexists; reflexivity. }
  revert next. induction l as [|v l IH]; intros next; cbn [convert_operands].
  - split; [intros _; constructor|intros _; eexists; reflexivity].
  - split.
    + intros [r H]. destruct (convert_operand defs v next) as [[[os1 v1] n1]|] eqn:C1; [|discriminate]. cbn [obind] in H. destruct (convert_operands defs l n1) as [[[os2 vs2] n2]|] eqn:C2; [|discriminate].
      constructor; [apply (One v next); eexists; exact C1|]. apply (IH n1). eexists; exact C2.
    + intros F. inversion F as [|? ? Hv Fl]; subst. destruct (proj2 (One v next) Hv) as [[[os1 v1] n1] C1]. rewrite C1. cbn [obind]. destruct (proj2 (IH n1) Fl) as [[[os2 vs2] n2] C2]. rewrite C2. cbn. eexists; reflexivity.
Qed.
(** The type of a new list *)
Theorem C125_types t t' : with_value_semantics t = Some t' <-> valued t t'.
Proof. apply valued_iff. Qed.
(** The names of operations that work in place lose their underscore *)
Theorem C125_names name name' : functional name name' -> no_underscore name = Some name'.
Proof. apply functional_name. Qed.
(** An operator that the library does not know, other than flash attention whose second result is not used, makes the pass fail *)
Theorem C125_operators l ret n name rs args : In (Operator name rs args) l -> in_library tr name = false -> (name = flash -> forall r0 r1, rs = [r0; r1] -> exists v, In v (flat_map operands l ++ ret) /\ fst v = fst r1) -> reduce tr l ret n = None.
Proof.
  intros I1 Nl Hf. unfold reduce. set (unused := fun v => negb (mentioned l ret v)).
  assert (X : forall k s next, In (Operator name rs args) k -> expand_all tr unused k s next = None).
  { induction k as [|o k IH]; intros s next; [intros []|]. cbn [expand_all]. intros [->|I2].
    - cbn [expand]. destruct (text_eqb name flash) eqn:Q.
      + apply text_eqb_eq in Q. destruct rs as [|r0 [|r1 [|]]]; try reflexivity. destruct args as [|q [|kk [|v [|dd [|cc [|mm [|ss more]]]]]]]; try reflexivity.
        destruct (Hf Q r0 r1 eq_refl) as (u & Iu & Eu). assert (Un : unused r1 = false). { unfold unused, mentioned. apply negb_false_iff. apply existsb_exists. exists u. split; [exact Iu|]. unfold is. apply Nat.eqb_eq. exact Eu. }
        rewrite Un. reflexivity.
      + rewrite Nl. reflexivity.
    - destruct (expand tr unused o next) as [[[os s'] n1]|]; [|reflexivity]. cbn [obind]. rewrite (IH _ _ I2). reflexivity. }
  rewrite (X l [] n I1). reflexivity.
Qed.
End Left.

(** ** A world *)
Definition sum_of (args : list (arg nat unit)) : option (list (datum nat unit)) :=
  match args with
  | Many l :: _ => Some [inl (List.length l)]
  | One (inl a) :: One (inl b) :: _ => Some [inl (a + b)]
  | One (inl a) :: _ => Some [inl (S a)]
  | _ => None
  end.
Definition appends (name : text) (rs : list nat) (xs : list (rt nat unit)) (m : memory nat unit) : option (list (rt nat unit) * memory nat unit) :=
  if text_eqb name (txt "torch.aten.append.t") then match xs with [Ref a; x] => match m a with Some (Items l) => Some ([Ref a], upd m a (Items (l ++ [x]))) | _ => None end | _ => None end else None.
Lemma sum_one args ys : sum_of args = Some ys -> exists c, ys = [inl c].
Proof. unfold sum_of. destruct args as [|[[c|y]|l] [|[[c'|y']|l'] args]]; try discriminate; intros [= <-]; eexists; reflexivity. Qed.
Definition small_world : world nat unit.
Proof.
  refine {| computes := fun _ => sum_of; operators := fun _ args => do ys <- sum_of args; match ys with [y] => Some [y; inl 0] | _ => None end;
            writes := fun _ args => do ys <- sum_of args; match ys with [inl c] => Some c | _ => None end; bernoulli := fun args => do ys <- sum_of args; match ys with [inl c] => Some c | _ => None end;
            dtype_of := fun _ => tt; cast_to := fun _ c => Some c; is_of := fun _ c => Nat.even c; the_bool := fun _ => tt; the_none := tt; literal := fun c => c; other := appends |}.
  - reflexivity.
  - intros name name' s args c _ H. destruct (sum_of (One (inl s) :: args)) as [ys|] eqn:E; [|discriminate]. cbn in H. destruct (sum_one _ _ E) as (c' & ->). injection H as ->. exists c. split; reflexivity.
  - intros args c H. destruct (sum_of args) as [ys|] eqn:E; [|discriminate]. cbn in H. destruct (sum_one _ _ E) as (c' & ->). injection H as ->. reflexivity.
  - intros q k v dropout causal mask scale more ys H. destruct (sum_of (q :: k :: v :: dropout :: causal :: mask :: scale :: more)) as [zs|] eqn:E; [|discriminate]. cbn in H. destruct (sum_one _ _ E) as (c & ->). injection H as <-.
    exists (inl c), [inl 0]. split; [reflexivity|]. unfold sum_of in *. destruct q as [[a|a]|l]; [|exact E|exact E]. destruct k as [[b|b]|l]; exact E.
  - intros P name rs xs m m' ys m1 C B F A H. unfold appends in *. destruct (text_eqb name _); [|discriminate]. destruct xs as [|[c|a|y] [|x [|]]]; try discriminate. inversion B as [|? ? Pa B1]; subst. inversion B1 as [|? ? Bx _]; subst. cbn in Pa. rewrite (A a Pa).
    destruct (m a) as [[c|l]|] eqn:Ma; try discriminate. injection H as <- <-. split.
    + intros b k Pb. unfold upd. destruct (b =? a); [intros [= <-]; apply Forall_app; split; [exact (C a l Pa Ma)|constructor; [exact Bx|constructor]]|apply C; exact Pb].
    + split; [constructor; [exact Pa|constructor]|]. eexists. split; [reflexivity|]. intros b Pb. unfold upd. destruct (b =? a); [reflexivity|exact (A b Pb)].
  - intros name rs xs m ys m1 H b _. unfold appends in H. destruct (text_eqb name _); [|discriminate]. destruct xs as [|[c|a|y] [|x [|]]]; try discriminate. destruct (m a) as [[c|l]|] eqn:Ma; try discriminate. injection H as <- <-.
    unfold upd. destruct (Nat.eqb_spec b a) as [->|N]; [rewrite Ma; reflexivity|reflexivity].
Defined.
Definition small_traits : traits :=
  {| value_semantics := fun n => negb (text_eqb n (txt "torch.aten.add_.Tensor")) && negb (text_eqb n (txt "torch.aten.append.t")); in_place := fun n => text_eqb n (txt "torch.aten.add_.Tensor"); in_library := fun n => text_eqb n (txt "mine") |}.
Lemma small_good : good_traits small_traits.
Proof.
  split; [|split; vm_compute; reflexivity]. cbn. intros name H _. apply text_eqb_eq in H. subst name. exists (txt "torch.aten.add.Tensor"). split; [|vm_compute; reflexivity].
  exists (txt "torch"), (txt "aten"), (txt "add"), [txt "Tensor"]. unfold dotless.
  assert (D : forall t, existsb (Ascii.eqb "."%char) t = false -> ~ In "."%char t). { intros t Ht I1. assert (existsb (Ascii.eqb "."%char) t = true) by (apply existsb_exists; exists "."%char; split; [exact I1|apply Ascii.eqb_refl]). congruence. }
  split; [split; [discriminate|apply D; reflexivity]|]. split; [split; [discriminate|apply D; reflexivity]|]. split; [split; [discriminate|apply D; reflexivity]|]. split; [constructor; [split; [discriminate|apply D; reflexivity]|constructor]|]. split; reflexivity.
Qed.
Definition e0 : env nat unit := fun i => if i <? 2 then Some (Ref i) else None.
Definition m0 : memory nat unit := fun a => if a <? 2 then Some (Tensor (3 + a)) else None.
Lemma start0 : starts [0; 1] e0 m0.
Proof.
  split; [|split].
  - intros i x. unfold e0. destruct (Nat.ltb_spec i 2); [|discriminate]. intros [= <-]. cbn. lia.
  - intros a. unfold m0. destruct (Nat.ltb_spec a 2); [|intros Z; contradiction Z; reflexivity]. intros _. cbn. lia.
  - intros a l _. unfold m0. destruct (a <? 2); discriminate.
Qed.
(** a += b; c = cat [a, b] *)
Definition program : list op :=
  [Aten (txt "torch.aten.add_.Tensor") [(2, NT 0)] [(0, NT 0); (1, NT 0)]; ListC (3, ListT (NT 0)) [(2, NT 0); (1, NT 0)]; Aten (txt "torch.aten.cat") [(4, NT 0)] [(3, ListT (NT 0))];
   Operator flash [(5, NT 0); (6, NT 0)] [(0, NT 0); (1, NT 0); (1, NT 0); (1, NT 0); (1, NT 0); (1, NT 0); (1, NT 0)]; NLit (7, NT 0) 9 1; Bernoulli (8, NT 0) [(7, NT 0); (1, NT 0)]].
Example C125_nonvacuous : exists l' ret' e2 m2, well_formed program [0; 1] 9 /\ keeps_lists small_world program /\ reduce small_traits program [(2, NT 0); (4, NT 0)] 9 = Some (l', ret')
  /\ run small_traits small_world program e0 m0 = Some (e2, m2) /\ m2 0 = Some (Tensor 7) /\ m2 4 = Some (Tensor 2) /\ m2 8 = None /\ m2 7 = Some (Tensor 13) /\ List.length l' = 35.
Proof.
  eexists; eexists; eexists; eexists. split; [split; [repeat constructor; cbn; lia|repeat constructor]|]. split.
  { intros name rs args I1 xs m ys m1 H. exfalso. cbn in H. unfold appends in H. cbn in I1. destruct I1 as [I1|[I1|[I1|[I1|[I1|[I1|[]]]]]]]; try discriminate I1; injection I1 as <- _ _; vm_compute in H; discriminate H. }
  split; [vm_compute; reflexivity|]. split; [vm_compute; reflexivity|]. repeat split; reflexivity.
Qed.
(** l = [a]; l.append(b); cat l: the operands of cat are taken from where the list is made *)
Definition appended : list op :=
  [ListC (2, ListT (NT 0)) [(0, NT 0)]; Aten (txt "torch.aten.append.t") [(3, ListT (NT 0))] [(2, ListT (NT 0)); (1, NT 0)]; Aten (txt "torch.aten.cat") [(4, NT 0)] [(2, ListT (NT 0))]].
Theorem C125_appended_refuted : exists l' ret' e2 m2 e2' m2', well_formed appended [0; 1] 5 /\ starts [0; 1] e0 m0 /\ reduce small_traits appended [(4, NT 0)] 5 = Some (l', ret')
  /\ run small_traits small_world appended e0 m0 = Some (e2, m2) /\ run small_traits small_world l' e0 m0 = Some (e2', m2') /\ m2 4 = Some (Tensor 2) /\ ret' = [(4, NT 0)] /\ e2' 4 = Some (Ref 4) /\ m2' 4 = Some (Tensor 1).
Proof.
  do 6 eexists. split; [split; [repeat constructor; cbn; lia|repeat constructor]|]. split; [exact start0|]. split; [vm_compute; reflexivity|]. split; [vm_compute; reflexivity|]. split; [vm_compute; reflexivity|]. repeat split; reflexivity.
Qed.

Print Assumptions C125_meaning.
Print Assumptions C125_done.
Print Assumptions C125_left.
Print Assumptions C125_operands.
Print Assumptions C125_types.
Print Assumptions C125_names.
Print Assumptions C125_operators.
Print Assumptions C125_appended_refuted.
