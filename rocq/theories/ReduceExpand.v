(** The operations that stand for others do what these do. *)
From Coq Require Import Bool Ascii String PeanoNat Lia List.
From Verif Require Import Prelude ReduceModel ReduceSpec ReduceProofs.
Import ListNotations.
Open Scope nat_scope.

Lemma text_eqb_eq a b : text_eqb a b = true <-> a = b.
Proof. unfold text_eqb. destruct (list_eq_dec ascii_dec a b); split; congruence. Qed.
Lemma ty_eqb_eq : forall a b, ty_eqb a b = true <-> a = b.
Proof.
  induction a as [i|i|a IH|a IH| |i]; destruct b as [j|j|b|b| |j]; cbn; split; try discriminate; try reflexivity;
    try (intros H; apply Nat.eqb_eq in H; congruence); try (intros H; injection H as ->; apply Nat.eqb_refl);
    try (intros H; f_equal; apply IH; exact H); try (intros H; injection H as ->; apply IH; reflexivity).
Qed.
Lemma numbers_app l l' : numbers (l ++ l') = numbers l ++ numbers l'.
Proof. apply flat_map_app. Qed.
Lemma numbers_rename s l : numbers (map (rename_op s) l) = numbers l.
Proof. unfold numbers. induction l as [|o l IH]; cbn; [reflexivity|]. rewrite results_rename, IH. reflexivity. Qed.
Lemma dropped_in l i : In i (dropped l) -> In i (numbers l).
Proof.
  unfold dropped, numbers. rewrite !in_flat_map. intros (o & I1 & I2). exists o. split; [exact I1|].
  destruct o; try contradiction. destruct rs as [|r0 [|r1 [|]]]; try contradiction. destruct (text_eqb name flash); [|contradiction].
  destruct I2 as [<-|[]]. right. left. reflexivity.
Qed.
Lemma dropped_app l l' : dropped (l ++ l') = dropped l ++ dropped l'.
Proof. apply flat_map_app. Qed.

Lemma overwrite_grows v t next os next' : overwrite_contents v t next = Some (os, next') -> next <= next' /\ (numbers os = [] /\ next' = next \/ numbers os = [next] /\ next' = S next) /\ forall name rs args, ~ In (Aten name rs args) os.
Proof.
  unfold overwrite_contents. destruct (snd t); try discriminate. destruct (ty_eqb (snd v) (VT info)); intros [= <- <-].
  - split; [lia|]. split; [left; split; reflexivity|]. intros name rs args [H|[]]; discriminate H.
  - split; [lia|]. split; [right; split; reflexivity|]. intros name rs args [H|[H|[]]]; discriminate H.
Qed.

Section Numbers.
Context (tr : traits).
Lemma expand_numbers unused o next os s' next' : expand tr unused o next = Some (os, s', next') -> NoDup (map fst (results o)) -> (forall k, In k (map fst (results o)) -> k < next) ->
  next <= next' /\ NoDup (numbers os) /\ forall k, In k (numbers os) -> In k (map fst (results o)) \/ next <= k < next'.
Proof.
  intros H D B.
  assert (Keep : [o] = os -> next = next' -> next <= next' /\ NoDup (numbers os) /\ forall k, In k (numbers os) -> In k (map fst (results o)) \/ next <= k < next').
  { intros <- <-. unfold numbers. cbn [flat_map]. rewrite app_nil_r. split; [lia|]. split; [exact D|]. intros k I1. left. exact I1. }
  destruct o as [name rs args|name rs args|r l|r v|r v|r v|r v|v t|r k i|r k|r b|r|r v|r v d|r args]; cbn [expand] in H;
    try (injection H as H1 _ H2; exact (Keep H1 H2)).
  - destruct (value_semantics tr name); [injection H as H1 _ H2; exact (Keep H1 H2)|].
    destruct (in_place tr name); [|injection H as H1 _ H2; exact (Keep H1 H2)].
    destruct (no_underscore name) as [name'|]; [|discriminate]. cbn [obind] in H.
    destruct rs as [|r [|]]; try discriminate. destruct args as [|self args]; try discriminate.
    destruct (snd r) as [i| | | | |]; try discriminate.
    destruct (overwrite_contents (5 + next, VT i) self (6 + next)) as [[os1 n1]|] eqn:E; [|discriminate]. cbn [obind] in H. injection H as <- _ <-.
    destruct (overwrite_grows _ _ _ _ _ E) as (G & N & _).
    unfold numbers in *. cbn [flat_map results map fst app]. split; [lia|].
    destruct N as [[-> ->]|[-> ->]]; (split; [repeat constructor; cbn; lia|]); intros k I1; right; cbn in I1; lia.
  - destruct (text_eqb name flash).
    + destruct rs as [|r0 [|r1 [|]]]; try discriminate. destruct args as [|q [|kk [|v [|dd [|cc [|mm [|ss more]]]]]]]; try discriminate.
      destruct (unused r1); [|discriminate]. injection H as <- _ <-. cbn [results map fst] in *. split; [lia|].
      assert (fst r0 < next) by (apply B; left; reflexivity).
      split; [unfold numbers; cbn; repeat constructor; cbn; lia|]. intros k I1. unfold numbers in I1. cbn in I1. destruct I1 as [<-|[<-|[]]]; [right; lia|]. left. left. reflexivity.
    + destruct (in_library tr name); [|discriminate]. injection H as H1 _ H2. exact (Keep H1 H2).
  - destruct (snd r) as [j| | | | |]; try discriminate. cbn [results map fst] in *. assert (fst r < next) by (apply B; left; reflexivity).
    destruct (i =? j); injection H as <- _ <-; (split; [lia|]); (split; [unfold numbers; cbn; repeat constructor; cbn; lia|]); intros x I1; unfold numbers in I1; cbn in I1.
    + destruct I1 as [<-|[<-|[]]]; [right; lia|left; left; reflexivity].
    + destruct I1 as [<-|[<-|[<-|[]]]]; [right; lia|right; lia|left; left; reflexivity].
  - destruct args as [|self args]; try discriminate. destruct (snd r) as [i| | | | |]; try discriminate.
    destruct (overwrite_contents (S next, VT i) self (2 + next)) as [[os1 n1]|] eqn:E; [|discriminate]. cbn [obind] in H. injection H as <- _ <-.
    destruct (overwrite_grows _ _ _ _ _ E) as (G & N & _).
    unfold numbers in *. cbn [flat_map results map fst app]. split; [lia|].
    destruct N as [[-> ->]|[-> ->]]; (split; [repeat constructor; cbn; lia|]); intros k I1; right; cbn in I1; lia.
Qed.
Lemma expand_atens unused o next os s' next' : good_traits tr -> expand tr unused o next = Some (os, s', next') -> forall name rs args, In (Aten name rs args) os -> value_semantics tr name = true \/ o = Aten name rs args.
Proof.
  intros (T1 & T2 & T3) H name0 rs0 args0 I0.
  assert (Keep : [o] = os -> value_semantics tr name0 = true \/ o = Aten name0 rs0 args0). { intros <-. destruct I0 as [<-|[]]. right. reflexivity. }
  destruct o as [name rs args|name rs args|r l|r v|r v|r v|r v|v t|r k i|r k|r b|r|r v|r v d|r args]; cbn [expand] in H;
    try (injection H as H1 _ H2; exact (Keep H1)).
  - destruct (value_semantics tr name) eqn:V; [injection H as H1 _ H2; exact (Keep H1)|].
    destruct (in_place tr name) eqn:Ip; [|injection H as H1 _ H2; exact (Keep H1)].
    destruct (T1 name Ip V) as (name' & F & V'). rewrite (functional_name _ _ F) in H. cbn [obind] in H.
    destruct rs as [|r [|]]; try discriminate. destruct args as [|self args]; try discriminate.
    destruct (snd r) as [i| | | | |]; try discriminate.
    destruct (overwrite_contents (5 + next, VT i) self (6 + next)) as [[os1 n1]|] eqn:E; [|discriminate]. cbn [obind] in H. injection H as <- _ <-.
    destruct (overwrite_grows _ _ _ _ _ E) as (_ & _ & N). cbn [app] in I0.
    destruct I0 as [Q|I0]; [injection Q as <- _ _; left; exact V'|]. do 5 (destruct I0 as [Q|I0]; [discriminate Q|]). elim (N _ _ _ I0).
  - destruct (text_eqb name flash).
    + destruct rs as [|r0 [|r1 [|]]]; try discriminate. destruct args as [|q [|kk [|v [|dd [|cc [|mm [|ss more]]]]]]]; try discriminate.
      destruct (unused r1); [|discriminate]. injection H as <- _ _. destruct I0 as [Q|[Q|[]]]; [discriminate Q|]. injection Q as <- _ _. left. exact T3.
    + destruct (in_library tr name); [|discriminate]. injection H as H1 _ H2. exact (Keep H1).
  - destruct (snd r) as [j| | | | |]; try discriminate. destruct (i =? j); injection H as <- _ _; cbn in I0; decompose [or] I0; try discriminate; contradiction.
  - destruct args as [|self args]; try discriminate. destruct (snd r) as [i| | | | |]; try discriminate.
    destruct (overwrite_contents (S next, VT i) self (2 + next)) as [[os1 n1]|] eqn:E; [|discriminate]. cbn [obind] in H. injection H as <- _ _.
    destruct (overwrite_grows _ _ _ _ _ E) as (_ & _ & N). cbn [app] in I0.
    destruct I0 as [Q|[Q|I0]]; [injection Q as <- _ _; left; exact T2|discriminate Q|]. elim (N _ _ _ I0).
Qed.
Lemma expand_all_numbers unused : forall l s next l1 s1 next1, expand_all tr unused l s next = Some (l1, s1, next1) -> NoDup (numbers l) -> (forall k, In k (numbers l) -> k < next) ->
  next <= next1 /\ NoDup (numbers l1) /\ forall k, In k (numbers l1) -> In k (numbers l) \/ next <= k < next1.
Proof.
  induction l as [|o l IH]; intros s next l1 s1 next1; cbn [expand_all].
  - intros [= <- _ <-] _ _. split; [lia|]. split; [constructor|]. intros k [].
  - intros H D B. destruct (expand tr unused o next) as [[[os s'] n1]|] eqn:E; [|discriminate]. cbn [obind] in H.
    destruct (expand_all tr unused l _ n1) as [[[rest s2] n2]|] eqn:E2 in H; [|discriminate]. cbn [obind] in H. injection H as <- _ <-.
    change (numbers (o :: l)) with (map fst (results o) ++ numbers l) in *. destruct (NoDup_app_inv _ _ _ D) as (D1 & D2 & D3).
    assert (B1 : forall k, In k (map fst (results o)) -> k < next) by (intros k I1; apply B; apply in_or_app; left; exact I1).
    destruct (expand_numbers _ _ _ _ _ _ E D1 B1) as (G1 & N1 & C1).
    assert (B2 : forall k, In k (numbers l) -> k < n1). { intros k I1. assert (k < next) by (apply B; apply in_or_app; right; exact I1). lia. }
    destruct (IH _ _ _ _ _ E2 D2 B2) as (G2 & N2 & C2).
    rewrite numbers_app, numbers_rename. split; [lia|]. split.
    + apply NoDup_app_intro; [exact N1|exact N2|]. intros k I1 I2. destruct (C1 k I1) as [K1|K1], (C2 k I2) as [K2|K2].
      * exact (D3 k K1 K2).
      * specialize (B1 k K1). lia.
      * assert (k < next) by (apply B; apply in_or_app; right; exact K2). lia.
      * lia.
    + intros k I1. apply in_app_or in I1. rewrite in_app_iff. destruct I1 as [I1|I1].
      * destruct (C1 k I1) as [K1|K1]; [left; left; exact K1|right; lia].
      * destruct (C2 k I1) as [K1|K1]; [left; right; exact K1|right; lia].
Qed.
Lemma expand_all_atens unused : forall l s next l1 s1 next1, good_traits tr -> expand_all tr unused l s next = Some (l1, s1, next1) -> forall name rs args, In (Aten name rs args) l1 -> value_semantics tr name = true \/ exists args', In (Aten name rs args') l.
Proof.
  induction l as [|o l IH]; intros s next l1 s1 next1 T; cbn [expand_all].
  - intros [= <- _ _] name rs args [].
  - intros H name rs args I1. destruct (expand tr unused o next) as [[[os s'] n1]|] eqn:E; [|discriminate]. cbn [obind] in H.
    destruct (expand_all tr unused l _ n1) as [[[rest s2] n2]|] eqn:E2 in H; [|discriminate]. cbn [obind] in H. injection H as <- _ _.
    apply in_app_or in I1. destruct I1 as [I1|I1].
    + apply in_map_iff in I1. destruct I1 as (o1 & Q & I1). destruct o1; try discriminate Q. cbn in Q. injection Q as -> -> _.
      destruct (expand_atens _ _ _ _ _ _ T E _ _ _ I1) as [V|K]; [left; exact V|]. right. exists args0. left. exact K.
    + destruct (IH _ _ _ _ _ T E2 _ _ _ I1) as [V|(args' & K)]; [left; exact V|]. right. exists args'. right. exact K.
Qed.
End Numbers.

Section Expand.
Context {content thing : Type} (tr : traits) (w : world content thing) (T : good_traits tr).
Notation env := (env content thing). Notation memory := (memory content thing). Notation rt := (rt content thing).
Context (l0 : list op) (ret : list value) (start : list nat) (n : nat) (W : well_formed l0 start n).
Definition used (i : nat) : Prop := In i (map fst (flat_map operands l0 ++ ret)).
Definition kept (a : nat) : Prop := a < n /\ ~ In a (dropped l0).
Definition unmentioned (v : value) : bool := negb (mentioned l0 ret v).
Lemma unmentioned_used v : unmentioned v = true -> ~ used (fst v).
Proof.
  unfold unmentioned, mentioned, used. rewrite negb_true_iff. intros H I1. apply in_map_iff in I1. destruct I1 as (u & E & I1).
  assert (X : existsb (is (fst v)) (flat_map operands l0 ++ ret) = true). { apply existsb_exists. exists u. split; [exact I1|]. unfold is. apply Nat.eqb_eq. exact E. }
  congruence.
Qed.

Record related (pre : list op) (s : renaming) (next : nat) (e : env) (m : memory) (e' : env) (m' : memory) : Prop := {
  r_agree : agree kept m m';
  r_closed : closed kept m;
  r_env : forall i x, used i -> e i = Some x -> e' (look s i) = Some x /\ below kept x;
  r_done : forall i, e i <> None -> In i (start ++ numbers pre);
  r_names : forall p, In p s -> In (fst p) (start ++ numbers pre) /\ In (snd p) (start ++ numbers pre);
  r_next : n <= next }.

Lemma done_below pre post i : l0 = pre ++ post -> In i (start ++ numbers pre) -> i < n.
Proof.
  intros E I1. destruct W as [_ F]. rewrite Forall_forall in F. apply F. rewrite E, numbers_app. apply in_app_or in I1. rewrite !in_app_iff. tauto.
Qed.
Lemma fresh_results pre o post i : l0 = pre ++ o :: post -> In i (map fst (results o)) -> i < n /\ ~ In i (start ++ numbers pre).
Proof.
  intros E I1. destruct W as [D F]. rewrite E, numbers_app in D, F. change (numbers (o :: post)) with (map fst (results o) ++ numbers post) in D, F.
  split.
  - rewrite Forall_forall in F. apply F. rewrite !in_app_iff. tauto.
  - rewrite app_assoc in D. destruct (NoDup_app_inv _ _ _ D) as (_ & _ & D3). intros I2. apply (D3 i I2). apply in_or_app. left. exact I1.
Qed.
Lemma results_nodup pre o post : l0 = pre ++ o :: post -> NoDup (map fst (results o)).
Proof.
  intros E. destruct W as [D _]. rewrite E, numbers_app in D. change (numbers (o :: post)) with (map fst (results o) ++ numbers post) in D.
  destruct (NoDup_app_inv _ _ _ D) as (_ & D2 & _). destruct (NoDup_app_inv _ _ _ D2) as (_ & D3 & _). destruct (NoDup_app_inv _ _ _ D3) as (D4 & _ & _). exact D4.
Qed.
Lemma results_kept pre o post i : l0 = pre ++ o :: post -> In i (map fst (results o)) -> ~ In i (dropped [o]) -> kept i.
Proof.
  intros E I1 N1. split; [exact (proj1 (fresh_results _ _ _ _ E I1))|].
  rewrite E. change (o :: post) with ([o] ++ post). rewrite !dropped_app, !in_app_iff. intros [I2|[I2|I2]]; [|exact (N1 I2)|].
  - apply (proj2 (fresh_results _ _ _ _ E I1)). apply in_or_app. right. apply dropped_in. exact I2.
  - destruct W as [D _]. rewrite E, numbers_app in D. change (numbers (o :: post)) with (map fst (results o) ++ numbers post) in D.
    destruct (NoDup_app_inv _ _ _ D) as (_ & D2 & _). destruct (NoDup_app_inv _ _ _ D2) as (_ & D3 & _). destruct (NoDup_app_inv _ _ _ D3) as (_ & _ & D4).
    exact (D4 i I1 (dropped_in _ _ I2)).
Qed.
Lemma operands_used pre o post v : l0 = pre ++ o :: post -> In v (operands o) -> used (fst v).
Proof. intros E I1. unfold used. apply in_map. apply in_or_app. left. rewrite E, flat_map_app. apply in_or_app. right. cbn. apply in_or_app. left. exact I1. Qed.
Lemma look_fresh pre s next e m e' m' i : related pre s next e m e' m' -> ~ In i (start ++ numbers pre) -> look s i = i.
Proof. intros R N1. apply look_out. intros I1. apply in_map_iff in I1. destruct I1 as (p & <- & I1). exact (N1 (proj1 (r_names _ _ _ _ _ _ _ R p I1))). Qed.
Lemma look_done pre s next e m e' m' i : related pre s next e m e' m' -> In i (start ++ numbers pre) -> In (look s i) (start ++ numbers pre).
Proof.
  intros R I1. destruct (look_cases s i) as [->|I2]; [exact I1|]. apply in_map_iff in I2. destruct I2 as (p & <- & I2). exact (proj2 (r_names _ _ _ _ _ _ _ R p I2)).
Qed.
Lemma numbers_snoc pre o : numbers (pre ++ [o]) = numbers pre ++ map fst (results o).
Proof. rewrite numbers_app. unfold numbers at 2. cbn. rewrite app_nil_r. reflexivity. Qed.

(** Operations that are left alone *)
Lemma keep_step pre o post s next next' e m e' m' e2 m2 : l0 = pre ++ o :: post -> dropped [o] = [] -> next <= next' -> related pre s next e m e' m' -> run_op tr w o e m = Some (e2, m2) ->
  exists e2' m2', run tr w (map (rename_op s) [o]) e' m' = Some (e2', m2') /\ related (pre ++ [o]) s next' e2 m2 e2' m2'.
Proof.
  intros E D G R Ro.
  assert (K : Forall kept (map fst (results o))). { apply Forall_forall. intros i I1. apply (results_kept pre o post); [exact E|exact I1|]. rewrite D. intros []. }
  destruct (run_op_rel tr w kept s o e m e2 m2 e' m' K (r_agree _ _ _ _ _ _ _ R) (r_closed _ _ _ _ _ _ _ R)) as (e2' & m2' & R' & (A & C & Dn & Nn & _)); [|exact Ro|].
  { intros v y I1. apply (r_env _ _ _ _ _ _ _ R). exact (operands_used _ _ _ _ E I1). }
  exists e2', m2'. cbn [map run]. rewrite R'. cbn [obind]. split; [reflexivity|]. constructor.
  - exact A.
  - exact C.
  - intros i x U H. destruct (in_dec Nat.eq_dec i (map fst (results o))) as [I1|I1].
    + rewrite (look_fresh _ _ _ _ _ _ _ i R (proj2 (fresh_results _ _ _ _ E I1))). destruct (Dn i I1) as (-> & y & Ey & B). rewrite Ey in *. injection H as ->. split; [reflexivity|exact B].
    + destruct (Nn i I1) as [Q _]. rewrite Q in H. destruct (r_env _ _ _ _ _ _ _ R i x U H) as [X B]. split; [|exact B].
      assert (I3 : ~ In (look s i) (map fst (results o))).
      { intros I2. apply (proj2 (fresh_results _ _ _ _ E I2)). apply (look_done _ _ _ _ _ _ _ i R). apply (r_done _ _ _ _ _ _ _ R). rewrite H. discriminate. }
      rewrite (proj2 (Nn _ I3)). exact X.
  - intros i H. rewrite numbers_snoc. destruct (in_dec Nat.eq_dec i (map fst (results o))) as [I1|I1]; [rewrite !in_app_iff; tauto|].
    rewrite (proj1 (Nn i I1)) in H. apply (r_done _ _ _ _ _ _ _ R) in H. apply in_app_or in H. rewrite !in_app_iff. tauto.
  - intros p I1. destruct (r_names _ _ _ _ _ _ _ R p I1) as [X Y]. rewrite numbers_snoc, app_assoc. split; apply in_or_app; left; assumption.
  - pose proof (r_next _ _ _ _ _ _ _ R). lia.
Qed.

(** The overwriting of contents *)
Lemma run_overwrite s v t k os k' (E : env) (M : memory) c a : overwrite_contents v t k = Some (os, k') -> look s (fst v) = fst v -> look s k = k -> fst v < k -> look s (fst t) < k ->
  E (fst v) = Some (Val c) -> (exists i, snd v = VT i) -> E (look s (fst t)) = Some (Ref a) -> (exists c0, M a = Some (Tensor c0)) ->
  exists E', run tr w (map (rename_op s) os) E M = Some (E', upd M a (Tensor c)) /\ forall i, i < k -> E' i = E i.
Proof.
  unfold overwrite_contents. intros H Lv Lk Bv Bt Ev (i & Tv) Et (c0 & Ma). destruct t as [t tt]. cbn [fst snd] in *. destruct tt as [j| | | | |]; try discriminate.
  assert (Rt : rename s (t, NT j) = (look s t, NT j)). { rewrite (surjective_pairing (rename s (t, NT j))), rename_fst, rename_snd. reflexivity. }
  assert (Rv : rename s v = v). { rewrite (surjective_pairing (rename s v)), rename_fst, rename_snd, Lv. destruct v; reflexivity. }
  destruct (ty_eqb (snd v) (VT j)) eqn:Q; injection H as <- <-.
  - exists E. cbn [map rename_op run]. unfold run_op. cbn [operands mapM]. rewrite Rt, Rv. unfold fetch. cbn [fst snd]. rewrite Ev, Et. cbn [obind]. rewrite Tv. cbn [fits]. rewrite Ma. cbn [obind exec tensor_at]. rewrite Ma. cbn. split; [reflexivity|]. reflexivity.
  - exists (upd E k (Val c)). cbn [map rename_op run]. unfold run_op. cbn [operands mapM]. rewrite Rt, Rv.
    assert (Rk : rename s (k, VT j) = (k, VT j)). { rewrite (surjective_pairing (rename s (k, VT j))), rename_fst, rename_snd. cbn. rewrite Lk. reflexivity. }
    rewrite Rk. unfold fetch. cbn [fst snd]. rewrite Ev. cbn [obind]. rewrite Tv. cbn [fits obind exec fst]. rewrite upd_eq. cbn [obind fits]. rewrite upd_neq by lia. rewrite Et. cbn [obind]. rewrite Ma. cbn [obind tensor_at]. rewrite Ma. cbn.
    split; [reflexivity|]. intros x B. apply upd_neq. lia.
Qed.

Lemma rename_out s i t : look s i = i -> rename s (i, t) = (i, t).
Proof. intros H. rewrite (surjective_pairing (rename s (i, t))), rename_fst, rename_snd. cbn. rewrite H. reflexivity. Qed.
Lemma fetch_val (e : env) m i t (x : rt) : e i = Some x -> fits m t x = true -> fetch e m (i, t) = Some x.
Proof. unfold fetch. cbn. intros -> H. cbn. rewrite H. reflexivity. Qed.

(** What a result is replaced by *)
Lemma alias_related pre o post s next next' r self e m e' m' (e2 : env) m2 e2' m2' a : l0 = pre ++ o :: post -> results o = [r] -> In self (operands o) -> related pre s next e m e' m' -> next <= next' ->
  e (fst self) = Some (Ref a) -> e2 = upd e (fst r) (Ref a) -> agree kept m2 m2' -> closed kept m2 -> (forall i, i < next -> e2' i = e' i) ->
  related (pre ++ [o]) ((fst r, look s (fst self)) :: s) next' e2 m2 e2' m2'.
Proof.
  intros E Rs Is R G Es -> A C Same.
  assert (Us := operands_used _ _ _ _ E Is).
  assert (Fr : ~ In (fst r) (start ++ numbers pre)). { apply (fun H => proj2 (fresh_results _ _ _ _ E H)). rewrite Rs. left. reflexivity. }
  assert (Bn : forall i, In i (start ++ numbers pre) -> i < next). { intros i I1. pose proof (done_below _ _ _ E I1). pose proof (r_next _ _ _ _ _ _ _ R). lia. }
  destruct (r_env _ _ _ _ _ _ _ R _ _ Us Es) as [Xs Bs].
  assert (Ds : In (look s (fst self)) (start ++ numbers pre)). { apply (look_done _ _ _ _ _ _ _ _ R). apply (r_done _ _ _ _ _ _ _ R). rewrite Es. discriminate. }
  constructor.
  - exact A.
  - exact C.
  - intros i x U H. unfold look. cbn [find fst]. destruct (Nat.eqb_spec (fst r) i) as [<-|N1].
    + rewrite upd_eq in H. injection H as <-. cbn [snd]. rewrite Same by (apply Bn; exact Ds). split; assumption.
    + rewrite upd_neq in H by congruence. fold (look s i). destruct (r_env _ _ _ _ _ _ _ R i x U H) as [X B]. split; [|exact B]. rewrite Same; [exact X|].
      apply Bn. apply (look_done _ _ _ _ _ _ _ _ R). apply (r_done _ _ _ _ _ _ _ R). rewrite H. discriminate.
  - intros i H. rewrite numbers_snoc, Rs. destruct (Nat.eq_dec i (fst r)) as [->|N1]; [rewrite !in_app_iff; cbn; tauto|]. rewrite upd_neq in H by exact N1.
    apply (r_done _ _ _ _ _ _ _ R) in H. apply in_app_or in H. rewrite !in_app_iff. tauto.
  - intros p [<-|I1]; rewrite numbers_snoc, Rs, app_assoc; cbn [fst snd map].
    + split; apply in_or_app; [right; left; reflexivity|left; exact Ds].
    + destruct (r_names _ _ _ _ _ _ _ R p I1) as [X Y]. split; apply in_or_app; left; assumption.
  - pose proof (r_next _ _ _ _ _ _ _ R). lia.
Qed.

(** What an operation that writes does *)
Lemma write_inv f r (xs : list rt) e m e2 m2 : write f r xs e m = Some (e2, m2) ->
  exists a c0 c args more, xs = Ref a :: more /\ m a = Some (Tensor c0) /\ mapM (read m) xs = Some (One (inl c0) :: args) /\ f (One (inl c0) :: args) = Some c /\ e2 = upd e (fst r) (Ref a) /\ m2 = upd m a (Tensor c).
Proof.
  unfold write. destruct (mapM (read m) xs) as [as_|] eqn:Q; [|discriminate]. cbn [obind]. destruct (f as_) as [c|] eqn:F; [|discriminate]. cbn [obind].
  destruct xs as [|[c1|a|y] more]; try discriminate. destruct (m a) as [[c0|]|] eqn:Ma; try discriminate. intros [= <- <-].
  cbn [mapM read read1] in Q. rewrite Ma in Q. cbn [obind] in Q. destruct (mapM (read m) more) as [args|] eqn:Q2; [|discriminate]. cbn in Q. injection Q as <-.
  exists a, c0, c, args, more. split; [reflexivity|]. split; [exact Ma|]. split; [reflexivity|]. split; [exact F|]. split; reflexivity.
Qed.

Lemma run_one o (e : env) m : run tr w [o] e m = run_op tr w o e m.
Proof. cbn. destruct (run_op tr w o e m) as [[? ?]|]; reflexivity. Qed.
Ltac nums := repeat first [rewrite upd_eq | rewrite upd_neq by lia].
Lemma expand_step pre o post s next os s' next' e m e' m' e2 m2 : l0 = pre ++ o :: post -> expand tr unmentioned o next = Some (os, s', next') -> related pre s next e m e' m' -> run_op tr w o e m = Some (e2, m2) ->
  exists e2' m2', run tr w (map (rename_op s) os) e' m' = Some (e2', m2') /\ related (pre ++ [o]) (map (fun p => (fst p, fst (rename s (snd p, NoneT)))) s' ++ s) next' e2 m2 e2' m2'.
Proof.
  intros E H R Ro.
  assert (Keep : dropped [o] = [] -> [o] = os -> [] = s' -> next = next' -> exists e2' m2', run tr w (map (rename_op s) os) e' m' = Some (e2', m2') /\ related (pre ++ [o]) (map (fun p => (fst p, fst (rename s (snd p, NoneT)))) s' ++ s) next' e2 m2 e2' m2').
  { intros D <- <- <-. cbn [map app]. exact (keep_step pre o post s next next e m e' m' e2 m2 E D (le_n _) R Ro). }
  assert (Nn := r_next _ _ _ _ _ _ _ R).
  assert (Temp : forall k, next <= k -> look s k = k). { intros k Bk. apply (look_fresh _ _ _ _ _ _ _ k R). intros I1. pose proof (done_below _ _ _ E I1). lia. }
  assert (Done : forall v x, In v (operands o) -> e (fst v) = Some x -> e' (look s (fst v)) = Some x /\ below kept x /\ look s (fst v) < next).
  { intros v x I1 Hx. destruct (r_env _ _ _ _ _ _ _ R _ _ (operands_used _ _ _ _ E I1) Hx) as [X B]. split; [exact X|]. split; [exact B|].
    assert (D : In (look s (fst v)) (start ++ numbers pre)). { apply (look_done _ _ _ _ _ _ _ _ R). apply (r_done _ _ _ _ _ _ _ R). rewrite Hx. discriminate. }
    pose proof (done_below _ _ _ E D). lia. }
  assert (A := r_agree _ _ _ _ _ _ _ R). assert (C := r_closed _ _ _ _ _ _ _ R).
  assert (Fetch : forall xs, mapM (fetch e m) (operands o) = Some xs -> mapM (fetch e' m') (map (rename s) (operands o)) = Some xs /\ mapM (read m') xs = mapM (read m) xs).
  { intros xs Q. split.
    - apply (mapM_rel (fetch e m) (fetch e' m') (rename s) _ xs Q). intros v x I1. apply (fetch_rel kept); [exact A|]. intros y Hy. destruct (Done v y I1 Hy) as (X & B & _). split; assumption.
    - apply (reads_agree kept); [exact A|exact C|]. apply (mapM_Forall _ _ _ _ Q). intros v x I1 Hx. apply fetch_env in Hx. exact (proj1 (proj2 (Done v x I1 (proj1 Hx)))). }
  destruct o as [name rs args|name rs args|r l|r v|r v|r v|r v|v t|r k i|r k|r b|r|r v|r v d|r args]; cbn [expand] in H;
    try (injection H as H1 H2 H3; exact (Keep eq_refl H1 H2 H3)).
  - destruct (value_semantics tr name) eqn:V; [injection H as H1 H2 H3; exact (Keep eq_refl H1 H2 H3)|].
    destruct (in_place tr name) eqn:Ip; [|injection H as H1 H2 H3; exact (Keep eq_refl H1 H2 H3)].
    destruct (proj1 T name Ip V) as (name' & F & V'). rewrite (functional_name _ _ F) in H. cbn [obind] in H.
    destruct rs as [|r [|]]; try discriminate. destruct args as [|self args]; try discriminate.
    destruct (snd r) as [i| | | | |] eqn:Tr; try discriminate.
    destruct (overwrite_contents (5 + next, VT i) self (6 + next)) as [[os1 n1]|] eqn:Eo; [|discriminate]. cbn [obind] in H. injection H as <- <- <-.
    unfold run_op in Ro. cbn [operands] in *. destruct (mapM (fetch e m) (self :: args)) as [xs|] eqn:Q; [|discriminate]. cbn [obind exec] in Ro. rewrite V, Ip in Ro.
    destruct (write_inv _ _ _ _ _ _ _ Ro) as (a & c0 & c & ar & more & -> & Ma & Qr & Wc & -> & ->).
    destruct (writes_result w name name' c0 ar c F Wc) as (c' & Cc & Dc).
    destruct (Fetch _ eq_refl) as [Q' Qr']. rewrite Qr in Qr'. clear Fetch.
    assert (Es : e (fst self) = Some (Ref a)). { cbn [mapM] in Q. destruct (fetch e m self) as [x|] eqn:Qs; [|discriminate]. cbn [obind] in Q. destruct (mapM (fetch e m) args); [|discriminate]. cbn in Q. injection Q as -> _. exact (proj1 (fetch_env _ _ _ _ Qs)). }
    destruct (Done self _ (or_introl eq_refl) Es) as (Xs & Bs & Ls). cbn in Bs. assert (Ban : a < n) by exact (proj1 Bs).
    assert (Ma' : m' a = Some (Tensor c0)) by (rewrite (A a Bs); exact Ma).
    (* the operations before the overwriting *)
    set (e1 := upd e' next (Ref next)). set (m1 := upd m' next (Tensor (thing := thing) c')).
    set (e4 := upd (upd (upd e1 (S next) (Any (the_none w))) (2 + next) (Any (the_bool w false))) (3 + next) (Any (dtype_of w c0))).
    assert (R1 : run_op tr w (rename_op s (Aten name' [(next, NT i)] (self :: args))) e' m' = Some (e1, m1)).
    { unfold run_op. rewrite operands_rename. cbn [operands]. rewrite Q'. cbn [obind rename_op exec]. rewrite V', Qr'. cbn [obind]. rewrite Cc. reflexivity. }
    assert (Fs : forall E1 : env, E1 (look s (fst self)) = e' (look s (fst self)) -> fetch E1 m1 (rename s self) = Some (Ref a)).
    { intros E1 Q1. unfold fetch. rewrite rename_fst, rename_snd, Q1, Xs. cbn [obind]. assert (Fi : fits m1 (snd self) (Ref a) = true).
      { cbn [mapM] in Q. destruct (fetch e m self) as [x|] eqn:Qs; [|discriminate]. cbn [obind] in Q. destruct (mapM (fetch e m) args); [|discriminate]. cbn in Q. injection Q as -> _.
        rewrite <- (proj2 (fetch_env _ _ _ _ Qs)). apply fits_kind. intros b [= <-]. unfold m1. rewrite upd_neq by lia. rewrite Ma, Ma'. reflexivity. }
      rewrite Fi. reflexivity. }
    assert (M1a : m1 a = Some (Tensor c0)) by (unfold m1; rewrite upd_neq by lia; exact Ma').
    assert (R4 : run tr w (map (rename_op s) [CNone (S next, NoneT); CBool (2 + next, OtherT 0) false; DtypeOf (3 + next, OtherT 1) self]) e1 m1 = Some (e4, m1)).
    { cbn [map rename_op run]. unfold run_op at 1. cbn [operands mapM obind exec fst]. unfold run_op at 1. cbn [operands mapM obind exec fst]. unfold run_op at 1. cbn [operands mapM obind].
      rewrite Fs by (unfold e1; nums; reflexivity). cbn [obind exec tensor_at fst]. rewrite M1a. reflexivity. }
    assert (R5 : exists x5 m5, run_op tr w (rename_op s (ToDtype (4 + next, NT i) (next, NT i) (3 + next, OtherT 1))) e4 m1 = Some (upd e4 (4 + next) x5, m5)
              /\ (exists a5, x5 = Ref a5 /\ m5 a5 = Some (Tensor c)) /\ forall b, b < next -> m5 b = m' b).
    { unfold run_op. rewrite operands_rename. cbn [operands map mapM]. rewrite !rename_out by (apply Temp; lia).
      rewrite (fetch_val e4 m1 next (NT i) (Ref next)); [|unfold e4, e1; nums; reflexivity|cbn; unfold m1; rewrite upd_eq; reflexivity]. cbn [obind].
      rewrite (fetch_val e4 m1 (3 + next) (OtherT 1) (Any (dtype_of w c0))); [|unfold e4; nums; reflexivity|reflexivity]. cbn [obind rename_op exec tensor_at fst].
      unfold m1 at 1. rewrite upd_eq. cbn [obind]. destruct (is_of w (dtype_of w c0) c') eqn:Io.
      - rewrite (is_of_cast w _ _ Io) in Dc. injection Dc as ->. exists (Ref next), m1. split; [reflexivity|]. split; [exists next; split; [reflexivity|unfold m1; apply upd_eq]|]. intros b Bb. unfold m1. apply upd_neq. lia.
      - rewrite Dc. cbn [obind]. exists (Ref (4 + next)), (upd m1 (4 + next) (Tensor c)). split; [reflexivity|]. split; [exists (4 + next); split; [reflexivity|apply upd_eq]|]. intros b Bb. unfold m1. nums. reflexivity. }
    destruct R5 as (x5 & m5 & R5 & (a5 & -> & M5) & S5).
    set (e6 := upd (upd e4 (4 + next) (Ref a5)) (5 + next) (Val c)).
    assert (R6 : run_op tr w (rename_op s (ToVal (5 + next, VT i) (4 + next, NT i))) (upd e4 (4 + next) (Ref a5)) m5 = Some (e6, m5)).
    { unfold run_op. rewrite operands_rename. cbn [operands map mapM]. rewrite !rename_out by (apply Temp; lia).
      rewrite (fetch_val _ m5 (4 + next) (NT i) (Ref a5)); [|nums; reflexivity|cbn; rewrite M5; reflexivity]. cbn [obind rename_op exec tensor_at fst]. rewrite M5. reflexivity. }
    destruct (run_overwrite s (5 + next, VT i) self (6 + next) os1 n1 e6 m5 c a Eo) as (e7 & R7 & S7); cbn [fst snd]; try (apply Temp; lia); try lia.
    { unfold e6. apply upd_eq. } { exists i. reflexivity. } { unfold e6, e4, e1. nums. exact Xs. } { exists c0. rewrite S5 by lia. exact Ma'. }
    exists e7, (upd m5 a (Tensor c)). split.
    + match goal with |- run _ _ ?L _ _ = _ => change L with ([rename_op s (Aten name' [(next, NT i)] (self :: args))] ++ map (rename_op s) [CNone (S next, NoneT); CBool (2 + next, OtherT 0) false; DtypeOf (3 + next, OtherT 1) self] ++ [rename_op s (ToDtype (4 + next, NT i) (next, NT i) (3 + next, OtherT 1)); rename_op s (ToVal (5 + next, VT i) (4 + next, NT i))] ++ map (rename_op s) os1) end.
      rewrite run_app, run_one, R1. cbn [obind]. rewrite run_app, R4. cbn [obind]. rewrite run_app. cbn [run]. rewrite R5. cbn [obind]. rewrite R6. cbn [obind]. exact R7.
    + cbn [map app fst snd]. rewrite rename_fst. cbn [fst]. apply (alias_related pre _ post s next n1 r self e m e' m' _ (upd m a (Tensor c)) e7 (upd m5 a (Tensor c)) a E); try assumption; try reflexivity.
      * left. reflexivity.
      * destruct (overwrite_grows _ _ _ _ _ Eo) as [G _]. lia.
      * intros b Pb. unfold upd. destruct (b =? a); [reflexivity|]. rewrite S5 by (destruct Pb; lia). apply A. exact Pb.
      * apply closed_upd_tensor. exact C.
      * intros b Bb. rewrite S7 by lia. unfold e6, e4, e1. nums. reflexivity.
  - destruct (text_eqb name flash) eqn:Fl.
    + apply text_eqb_eq in Fl. subst name. destruct rs as [|r0 [|r1 [|]]]; try discriminate. destruct args as [|q [|kk [|v [|dd [|cc [|mm [|ss more]]]]]]]; try discriminate.
      destruct (unmentioned r1) eqn:Un; [|discriminate]. injection H as <- <- <-. apply unmentioned_used in Un.
      unfold run_op in Ro. cbn [operands] in *. set (args := q :: kk :: v :: dd :: cc :: mm :: ss :: more) in *.
      destruct (mapM (fetch e m) args) as [xs|] eqn:Q; [|discriminate]. cbn [obind exec] in Ro. destruct (mapM (read m) xs) as [as_|] eqn:Qr; [|discriminate]. cbn [obind] in Ro.
      destruct (operators w flash as_) as [ds|] eqn:Op; [|discriminate]. cbn [obind] in Ro.
      destruct (Fetch _ eq_refl) as [Q' Qr']. rewrite Qr in Qr'.
      assert (X : exists x1 x2 x3 x4 x5 x6 x7 xm, xs = x1 :: x2 :: x3 :: x4 :: x5 :: x6 :: x7 :: xm).
      { unfold args in Q. apply mapM_Forall2 in Q. do 7 (inversion Q as [|? ? ? ? _ Q0]; subst; clear Q; rename Q0 into Q). repeat eexists. }
      destruct X as (x1 & x2 & x3 & x4 & x5 & x6 & x7 & xm & ->).
      assert (Y : exists y1 y2 y3 y4 y5 y6 y7 ym, as_ = y1 :: y2 :: y3 :: y4 :: y5 :: y6 :: y7 :: ym).
      { apply mapM_Forall2 in Qr. do 7 (inversion Qr as [|? ? ? ? _ Q0]; subst; clear Qr; rename Q0 into Qr). repeat eexists. }
      destruct Y as (y1 & y2 & y3 & y4 & y5 & y6 & y7 & ym & ->).
      destruct (flash_result w _ _ _ _ _ _ _ _ _ Op) as (y & ys & -> & Cs).
      destruct ys as [|y' [|]]; cbn [puts] in Ro; try (destruct (put r0 y e m) as [[? ?]|]; cbn in Ro; [|discriminate]; try discriminate; destruct (put r1 y' _ _) as [[? ?]|]; discriminate).
      destruct (put r0 y e m) as [[ea ma]|] eqn:P0; [|discriminate]. cbn [obind] in Ro. destruct (put r1 y' ea ma) as [[eb mb]|] eqn:P1; [|discriminate]. cbn in Ro. injection Ro as <- <-.
      assert (ND := results_nodup _ _ _ E). cbn [results map fst] in ND. assert (N01 : fst r0 <> fst r1). { inversion ND as [|? ? Z _]; subst. intros Z1. apply Z. left. congruence. }
      assert (K0 : kept (fst r0)). { apply (results_kept _ _ _ _ E); [left; reflexivity|]. unfold dropped. cbn [flat_map]. rewrite (proj2 (text_eqb_eq _ _) eq_refl). intros [Z|[]]. congruence. }
      assert (K1 : ~ kept (fst r1)). { intros [_ Z]. apply Z. rewrite E. unfold dropped. rewrite flat_map_app. apply in_or_app. right. cbn [flat_map]. rewrite (proj2 (text_eqb_eq _ _) eq_refl). left. reflexivity. }
      set (e1 := upd e' next (Any (the_bool w false))).
      destruct (put_local kept r0 y e m ea ma e1 m' K0 A C P0) as (e3 & m3 & P3 & (A3 & C3 & D3 & F3 & _)).
      assert (Eb : forall i, i <> fst r1 -> eb i = ea i). { intros i Z. unfold put in P1. destruct y' as [c|t], (snd r1); try discriminate; injection P1 as <- _; apply upd_neq; exact Z. }
      assert (Eb1 : eb (fst r1) <> None). { unfold put in P1. destruct y' as [c|t], (snd r1); try discriminate; injection P1 as <- _; rewrite upd_eq; discriminate. }
      assert (Mb : forall b, kept b -> mb b = ma b). { intros b Z. assert (b <> fst r1) by (intros ->; exact (K1 Z)). unfold put in P1. destruct y' as [c|t], (snd r1); try discriminate; injection P1 as _ <-; try reflexivity; apply upd_neq; assumption. }
      exists e3, m3. split.
      * assert (Ss : forall u, In u args -> fetch e1 m' (rename s u) = fetch e' m' (rename s u)).
        { intros u Iu. unfold fetch. rewrite !rename_fst. apply mapM_Forall2 in Q. unfold e1. rewrite upd_neq; [reflexivity|].
          assert (Z : exists x, e (fst u) = Some x). { clear -Q Iu. induction Q as [|v0 x0 l l' Hx F IH]; [contradiction|]. destruct Iu as [<-|Iu]; [exists x0; exact (proj1 (fetch_env _ _ _ _ Hx))|exact (IH Iu)]. }
          destruct Z as (x & Z). destruct (Done u x Iu Z) as (_ & _ & Lu). lia. }
        rewrite <- (mapM_same (fetch e' m') (fetch e1 m') (map (rename s) args)) in Q' by (intros u Iu; apply in_map_iff in Iu; destruct Iu as (u0 & <- & Iu); apply Ss; exact Iu).
        unfold args in Q'. cbn [map] in Q'. apply mapM_Forall2 in Q'.
        inversion Q' as [|? ? ? ? f1 Q1]; subst. inversion Q1 as [|? ? ? ? f2 Q2]; subst. inversion Q2 as [|? ? ? ? f3 Q3]; subst. inversion Q3 as [|? ? ? ? f4 Q4]; subst. inversion Q4 as [|? ? ? ? f5 Q5]; subst. inversion Q5 as [|? ? ? ? f6 Q6]; subst. inversion Q6 as [|? ? ? ? f7 Q7]; subst.
        apply mapM_Forall2 in Qr'.
        inversion Qr' as [|? ? ? ? g1 G1]; subst. inversion G1 as [|? ? ? ? g2 G2]; subst. inversion G2 as [|? ? ? ? g3 G3]; subst. inversion G3 as [|? ? ? ? g4 G4]; subst. inversion G4 as [|? ? ? ? g5 G5]; subst. inversion G5 as [|? ? ? ? g6 G6]; subst. inversion G6 as [|? ? ? ? g7 G7]; subst.
        cbn [map rename_op run]. unfold run_op at 1. cbn [operands mapM obind exec fst]. fold e1. unfold run_op. cbn [operands mapM]. rewrite f1, f2, f3, f6, f4, f5, f7. rewrite (rename_out s next) by (apply Temp; lia).
        rewrite (fetch_val e1 m' next (OtherT 0) (Any (the_bool w false))); [|unfold e1; apply upd_eq|reflexivity]. cbn [obind exec].
        change sdpa with (txt "torch.aten.scaled_dot_product_attention"). rewrite (proj2 (proj2 T)). cbn [mapM]. rewrite g1, g2, g3, g6, g4, g5, g7. cbn [obind read read1]. rewrite Cs. cbn [obind puts]. rewrite P3. reflexivity.
      * cbn [map app]. constructor.
        -- intros b Pb. rewrite (A3 b Pb), (Mb b Pb). reflexivity.
        -- intros b l Pb. rewrite (Mb b Pb). apply C3. exact Pb.
        -- intros i x U Hx. assert (Z : i <> fst r1) by (intros ->; exact (Un U)). rewrite (Eb i Z) in Hx. destruct (Nat.eq_dec i (fst r0)) as [->|Z0].
           ++ assert (Z2 : ~ In (fst r0) (start ++ numbers pre)) by (apply (fun Z2 => proj2 (fresh_results _ _ _ _ E Z2)); left; reflexivity).
              rewrite (look_fresh _ _ _ _ _ _ _ _ R Z2). destruct (D3 (fst r0) (or_introl eq_refl)) as (-> & z & Ez & Bz). rewrite Ez in *. injection Hx as ->. split; [reflexivity|exact Bz].
           ++ rewrite (proj1 (F3 i ltac:(intros [Z3|[]]; congruence))) in Hx. destruct (r_env _ _ _ _ _ _ _ R i x U Hx) as [X B]. split; [|exact B].
              assert (Dl : In (look s i) (start ++ numbers pre)). { apply (look_done _ _ _ _ _ _ _ _ R). apply (r_done _ _ _ _ _ _ _ R). rewrite Hx. discriminate. }
              rewrite (proj2 (F3 (look s i) ltac:(intros [Z3|[]]; apply (proj2 (fresh_results _ _ _ (fst r0) E (or_introl eq_refl))); rewrite Z3; exact Dl))).
              unfold e1. rewrite upd_neq; [exact X|]. pose proof (done_below _ _ _ E Dl). lia.
        -- intros i Hi. rewrite numbers_snoc. cbn [results map]. destruct (Nat.eq_dec i (fst r1)) as [->|Z]; [rewrite !in_app_iff; cbn; tauto|]. rewrite (Eb i Z) in Hi.
           destruct (Nat.eq_dec i (fst r0)) as [->|Z0]; [rewrite !in_app_iff; cbn; tauto|]. rewrite (proj1 (F3 i ltac:(intros [Z3|[]]; congruence))) in Hi.
           apply (r_done _ _ _ _ _ _ _ R) in Hi. apply in_app_or in Hi. rewrite !in_app_iff. tauto.
        -- intros p Ip. destruct (r_names _ _ _ _ _ _ _ R p Ip) as [X Y]. rewrite numbers_snoc, app_assoc. split; apply in_or_app; left; assumption.
        -- lia.
    + destruct (in_library tr name); [|discriminate]. injection H as H1 H2 H3. apply (Keep); try assumption. unfold dropped. cbn [flat_map]. rewrite Fl. destruct rs as [|? [|? [|]]]; reflexivity.
  - destruct (snd r) as [j| | | | |] eqn:Tr; try discriminate.
    assert (K0 : kept (fst r)) by (apply (results_kept _ _ _ _ E); [left; reflexivity|intros []]).
    unfold run_op in Ro. cbn [operands mapM obind exec] in Ro. injection Ro as <- <-. set (c := literal w k).
    assert (X : exists e2', run tr w (map (rename_op s) os) e' m' = Some (upd e2' (fst r) (Ref (fst r)), upd m' (fst r) (Tensor c)) /\ (forall b, b < next -> e2' b = e' b) /\ s' = [] /\ next <= next').
    { destruct (i =? j) eqn:Ij; injection H as <- <- <-.
      - apply Nat.eqb_eq in Ij. subst j. exists (upd e' next (Val c)). split; [|split; [intros b Bb; nums; reflexivity|split; [reflexivity|lia]]].
        cbn [map rename_op run]. unfold run_op at 1. cbn [operands mapM obind exec fst]. unfold run_op. cbn [operands mapM]. rewrite (rename_out s next) by (apply Temp; lia).
        rewrite (fetch_val _ m' next (VT i) (Val c)); [|apply upd_eq|reflexivity]. reflexivity.
      - exists (upd (upd e' next (Val c)) (S next) (Val c)). split; [|split; [intros b Bb; nums; reflexivity|split; [reflexivity|lia]]].
        cbn [map rename_op run]. unfold run_op at 1. cbn [operands mapM obind exec fst]. unfold run_op at 1. cbn [operands mapM]. rewrite !rename_out by (apply Temp; lia).
        rewrite (fetch_val _ m' next (VT i) (Val c)); [|apply upd_eq|reflexivity]. cbn [obind exec fst]. unfold run_op. cbn [operands mapM].
        rewrite (fetch_val _ m' (S next) (VT j) (Val c)); [|apply upd_eq|reflexivity]. reflexivity. }
    destruct X as (e3 & X & S3 & -> & G). eexists; eexists; split; [exact X|]. cbn [map app].
    assert (Fr : ~ In (fst r) (start ++ numbers pre)) by (apply (fun Z2 => proj2 (fresh_results _ _ _ _ E Z2)); left; reflexivity).
    constructor.
    + apply agree_upd. exact A.
    + apply closed_upd_tensor. exact C.
    + intros z x U Hx. destruct (Nat.eq_dec z (fst r)) as [->|Z].
      * rewrite (look_fresh _ _ _ _ _ _ _ _ R Fr). rewrite upd_eq in *. injection Hx as <-. split; [reflexivity|exact K0].
      * rewrite upd_neq in Hx by exact Z. destruct (r_env _ _ _ _ _ _ _ R z x U Hx) as [Y B]. split; [|exact B].
        assert (Dl : In (look s z) (start ++ numbers pre)). { apply (look_done _ _ _ _ _ _ _ _ R). apply (r_done _ _ _ _ _ _ _ R). rewrite Hx. discriminate. }
        rewrite upd_neq by (intros Z3; apply Fr; rewrite <- Z3; exact Dl). rewrite S3; [exact Y|]. pose proof (done_below _ _ _ E Dl). lia.
    + intros z Hz. rewrite numbers_snoc. cbn [results map]. destruct (Nat.eq_dec z (fst r)) as [->|Z]; [rewrite !in_app_iff; cbn; tauto|]. rewrite upd_neq in Hz by exact Z.
      apply (r_done _ _ _ _ _ _ _ R) in Hz. apply in_app_or in Hz. rewrite !in_app_iff. tauto.
    + intros p Ip. destruct (r_names _ _ _ _ _ _ _ R p Ip) as [Y Y2]. rewrite numbers_snoc, app_assoc. split; apply in_or_app; left; assumption.
    + lia.
  - destruct args as [|self args]; try discriminate. destruct (snd r) as [i| | | | |] eqn:Tr; try discriminate.
    destruct (overwrite_contents (S next, VT i) self (2 + next)) as [[os1 n1]|] eqn:Eo; [|discriminate]. cbn [obind] in H. injection H as <- <- <-.
    unfold run_op in Ro. cbn [operands] in *. destruct (mapM (fetch e m) (self :: args)) as [xs|] eqn:Q; [|discriminate]. cbn [obind exec] in Ro.
    destruct (write_inv _ _ _ _ _ _ _ Ro) as (a & c0 & c & ar & more & -> & Ma & Qr & Wc & -> & ->).
    assert (Cc := bernoulli_result w _ _ Wc).
    destruct (Fetch _ eq_refl) as [Q' Qr']. rewrite Qr in Qr'. clear Fetch.
    assert (Es : e (fst self) = Some (Ref a)). { cbn [mapM] in Q. destruct (fetch e m self) as [x|] eqn:Qs; [|discriminate]. cbn [obind] in Q. destruct (mapM (fetch e m) args); [|discriminate]. cbn in Q. injection Q as -> _. exact (proj1 (fetch_env _ _ _ _ Qs)). }
    destruct (Done self _ (or_introl eq_refl) Es) as (Xs & Bs & Ls). cbn in Bs. assert (Ban : a < n) by exact (proj1 Bs).
    assert (Ma' : m' a = Some (Tensor c0)) by (rewrite (A a Bs); exact Ma).
    set (e1 := upd e' next (Ref next)). set (m1 := upd m' next (Tensor (thing := thing) c)). set (e6 := upd e1 (S next) (Val c)).
    assert (R1 : run_op tr w (rename_op s (Aten valsem_bernoulli [(next, NT i)] (self :: args))) e' m' = Some (e1, m1)).
    { unfold run_op. rewrite operands_rename. cbn [operands]. rewrite Q'. cbn [obind rename_op exec]. change valsem_bernoulli with (txt "torch.valsem.aten.bernoulli.float"). rewrite (proj1 (proj2 T)), Qr'. cbn [obind]. rewrite Cc. reflexivity. }
    assert (R6 : run_op tr w (rename_op s (ToVal (S next, VT i) (next, NT i))) e1 m1 = Some (e6, m1)).
    { unfold run_op. rewrite operands_rename. cbn [operands map mapM]. rewrite !rename_out by (apply Temp; lia).
      rewrite (fetch_val _ m1 next (NT i) (Ref next)); [|unfold e1; nums; reflexivity|cbn; unfold m1; rewrite upd_eq; reflexivity]. cbn [obind rename_op exec tensor_at fst]. unfold m1 at 1. rewrite upd_eq. reflexivity. }
    destruct (run_overwrite s (S next, VT i) self (2 + next) os1 n1 e6 m1 c a Eo) as (e7 & R7 & S7); cbn [fst snd]; try (apply Temp; lia); try lia.
    { unfold e6. apply upd_eq. } { exists i. reflexivity. } { unfold e6, e1. nums. exact Xs. } { exists c0. unfold m1. rewrite upd_neq by lia. exact Ma'. }
    exists e7, (upd m1 a (Tensor c)). split.
    + match goal with |- run _ _ ?L _ _ = _ => change L with ([rename_op s (Aten valsem_bernoulli [(next, NT i)] (self :: args)); rename_op s (ToVal (S next, VT i) (next, NT i))] ++ map (rename_op s) os1) end. rewrite run_app. cbn [run]. rewrite R1. cbn [obind]. rewrite R6. cbn [obind]. exact R7.
    + cbn [map app fst snd]. rewrite rename_fst. cbn [fst]. apply (alias_related pre _ post s next n1 r self e m e' m' _ (upd m a (Tensor c)) e7 (upd m1 a (Tensor c)) a E); try assumption; try reflexivity.
      * left. reflexivity.
      * destruct (overwrite_grows _ _ _ _ _ Eo) as [G _]. lia.
      * intros b Pb. unfold upd. destruct (b =? a); [reflexivity|]. unfold m1. rewrite upd_neq by (destruct Pb; lia). apply A. exact Pb.
      * apply closed_upd_tensor. exact C.
      * intros b Bb. rewrite S7 by lia. unfold e6, e1. nums. reflexivity.
Qed.
Lemma expand_all_run : forall l pre s next l1 s1 next1 e m e' m' e2 m2, l0 = pre ++ l -> expand_all tr unmentioned l s next = Some (l1, s1, next1) -> related pre s next e m e' m' -> run tr w l e m = Some (e2, m2) ->
  exists e2' m2', run tr w l1 e' m' = Some (e2', m2') /\ related l0 s1 next1 e2 m2 e2' m2'.
Proof.
  induction l as [|o l IH]; intros pre s next l1 s1 next1 e m e' m' e2 m2 E H R Ro; cbn [expand_all run] in *.
  - injection H as <- <- <-. injection Ro as <- <-. exists e', m'. split; [reflexivity|]. rewrite E, app_nil_r. exact R.
  - destruct (expand tr unmentioned o next) as [[[os s'] n1]|] eqn:X; [|discriminate]. cbn [obind] in H.
    destruct (expand_all tr unmentioned l _ n1) as [[[rest s2] n2]|] eqn:X2 in H; [|discriminate]. cbn [obind] in H. injection H as <- <- <-.
    destruct (run_op tr w o e m) as [[ea ma]|] eqn:Ra; [|discriminate]. cbn [obind] in Ro.
    destruct (expand_step pre o l s next os s' n1 e m e' m' ea ma E X R Ra) as (ea' & ma' & Ra' & R').
    destruct (IH (pre ++ [o]) _ _ _ _ _ _ _ _ _ _ _ ltac:(rewrite <- app_assoc; exact E) X2 R' Ro) as (e2' & m2' & Rb & R2).
    exists e2', m2'. split; [|exact R2]. rewrite run_app, Ra'. cbn [obind]. exact Rb.
Qed.
End Expand.
