(** C131: what the verifiers of object graphs, slots and attributes accept. *)
From Coq Require Import Bool PeanoNat Lia Sorted String List.
From Verif Require Import Prelude GraphVerifyModel.
From Verif Require EntryModel EntryProps.
Import ListNotations.
Open Scope string_scope.
Open Scope list_scope.
Open Scope nat_scope.

Lemma has_in n l : has n l = true <-> In n l.
Proof. unfold has. rewrite existsb_exists. split; [intros (m & I1 & E); apply String.eqb_eq in E; subst; exact I1|intros I1; exists n; split; [exact I1|apply String.eqb_refl]]. Qed.
Lemma has_false n l : has n l = false <-> ~ In n l.
Proof. rewrite <- has_in, not_true_iff_false. reflexivity. Qed.

(** ** Classes *)
Definition child_name (c : class_child) : string := match c with Attr n _ | Method n _ => n | BadChild => "" end.
Lemma verify_class_seen : forall l seen, verify_class seen l = true <-> Forall (fun c => c <> BadChild) l /\ NoDup (map child_name l) /\ forall n, In n (map child_name l) -> ~ In n seen.
Proof.
  assert (Step : forall n c l seen, child_name c = n -> c <> BadChild -> (verify_class (n :: seen) l = true <-> Forall (fun c => c <> BadChild) l /\ NoDup (map child_name l) /\ forall m, In m (map child_name l) -> ~ In m (n :: seen)) -> ((if has n seen then false else verify_class (n :: seen) l) = true <-> Forall (fun c => c <> BadChild) (c :: l) /\ NoDup (map child_name (c :: l)) /\ forall m, In m (map child_name (c :: l)) -> ~ In m seen)).
  { intros n c l seen <- Nb IH. cbn [map]. destruct (has (child_name c) seen) eqn:Hs.
    - apply has_in in Hs. split; [discriminate|]. intros (_ & _ & H). exfalso. exact (H (child_name c) (or_introl eq_refl) Hs).
    - apply has_false in Hs. rewrite IH. split.
      + intros (H1 & H2 & H3). split; [constructor; assumption|]. split; [constructor; [intros Z; exact (H3 _ Z (or_introl eq_refl))|exact H2]|]. intros m [<-|Im] Is; [exact (Hs Is)|exact (H3 m Im (or_intror Is))].
      + intros (H1 & H2 & H3). inversion H1; subst. inversion H2; subst. split; [assumption|]. split; [assumption|]. intros m Im [<-|Is]; [contradiction|exact (H3 m (or_intror Im) Is)]. }
  induction l as [|c l IH]; intros seen; [cbn; split; [intros _; repeat split; [constructor|constructor|intros n []]|reflexivity]|]. destruct c as [n t|n f|]; cbn [verify_class].
  - apply Step; [reflexivity|discriminate|apply IH].
  - apply Step; [reflexivity|discriminate|apply IH].
  - split; [discriminate|]. intros (H & _). inversion H; congruence.
Qed.
Theorem C131_class l : verify_class [] l = true <-> (forall c, In c l -> c <> BadChild) /\ NoDup (map child_name l).
Proof. rewrite verify_class_seen, Forall_forall. split; [tauto|]. intros (H1 & H2). repeat split; try assumption. intros n _ []. Qed.
Theorem C131_method s c f : verify_method s c f = true <-> exists inputs, lookup f s = Some (Func true true (NnModule c :: inputs)).
Proof.
  unfold verify_method. split.
  - destruct (lookup f s) as [[p d i| | |]|]; try discriminate. destruct p, d; try discriminate. destruct i as [|t i]; [discriminate|]. destruct t; try discriminate. cbn. intros H. apply String.eqb_eq in H. subst. exists i. reflexivity.
  - intros (i & ->). cbn. apply String.eqb_refl.
Qed.
Theorem C131_nn_module l : verify_nn_module l = true <-> ~ In BadModuleChild l.
Proof. unfold verify_nn_module. rewrite forallb_forall. split; [intros H Z; specialize (H _ Z); discriminate|]. intros H c Ic. destruct c; try reflexivity. contradiction. Qed.
(** the first symbol of a name *)
Theorem C131_lookup n x : forall s, lookup n s = Some x <-> exists s1 s2, s = s1 ++ (n, x) :: s2 /\ ~ In n (map fst s1).
Proof.
  unfold lookup. induction s as [|[m y] s IH]; cbn [find fst]; [split; [discriminate|intros ([|] & s2 & Z & _); discriminate]|]. destruct (String.eqb_spec n m) as [->|N].
  - cbn. split; [intros [= ->]; exists [], s; split; [reflexivity|intros []]|]. intros ([|[k z] s1] & s2 & Z & Nin); cbn in Z; inversion Z; subst; [reflexivity|]. exfalso. apply Nin. left. reflexivity.
  - rewrite IH. split.
    + intros (s1 & s2 & -> & Nin). exists ((m, y) :: s1), s2. split; [reflexivity|]. cbn. intros [Z|Z]; [subst; apply N; reflexivity|exact (Nin Z)].
    + intros ([|[k z] s1] & s2 & Z & Nin); cbn in Z; inversion Z; subst; [contradiction|]. exists s1, s2. split; [reflexivity|]. intros Q. apply Nin. right. exact Q.
Qed.
Section Types.
Context (subtype : ty -> ty -> bool).
(** the slots of a module are those of its class, in order, with values of their types *)
Lemma attrs_in l n t : In (n, t) (attrs l) <-> In (Attr n t) l.
Proof. unfold attrs. rewrite in_flat_map. split; [intros (c & Ic & H); destruct c; cbn in H; try contradiction; destruct H as [[= <- <-]|[]]; exact Ic|intros H; exists (Attr n t); split; [exact H|left; reflexivity]]. Qed.
Theorem C131_nn_module_symbols s c l : verify_nn_module_symbols subtype s c l = true <-> exists children, lookup c s = Some (Class children) /\ Forall2 (fun p q => fst p = fst q /\ subtype (snd p) (snd q) = true) (slots l) (attrs children).
Proof.
  assert (M : forall a b, (List.length a =? List.length b) && match_slots subtype a b = true <-> Forall2 (fun p q => fst p = fst q /\ subtype (snd p) (snd q) = true) a b).
  { induction a as [|[n t] a IH]; intros [|[m u] b]; [cbn; split; [constructor|reflexivity]|cbn; split; [discriminate|intros Z; inversion Z]|cbn; split; [discriminate|intros Z; inversion Z]|]. specialize (IH b). cbn [List.length match_slots Nat.eqb] in *. rewrite andb_true_iff in *. destruct (subtype t u) eqn:Su; cbn [andb].
    - destruct (String.eqb_spec n m) as [->|N]; [split; [intros H; constructor; [auto|apply IH; exact H]|intros H; inversion H; subst; apply IH; assumption]|]. split; [intros (_ & Z); discriminate|intros H; inversion H as [|? ? ? ? [Z _]]; subst; cbn in Z; contradiction].
    - split; [intros (_ & Z); discriminate|intros H; inversion H as [|? ? ? ? [_ Z]]; subst; cbn in Z; congruence]. }
  unfold verify_nn_module_symbols. split.
  - destruct (lookup c s) as [[| ch| |]|]; try discriminate. intros H. exists ch. split; [reflexivity|]. apply M. exact H.
  - intros (ch & -> & H). apply M. exact H.
Qed.
(** what slots and attrs are: the slots of the module and the attributes of the class, methods left out *)
Theorem C131_children l l' : (forall n t, In (n, t) (attrs l) <-> In (Attr n t) l) /\ (forall n t, In (n, t) (slots l') <-> In (Slot n t) l') /\ attrs (l ++ [BadChild]) = attrs l /\ (forall n t, attrs (l ++ [Attr n t]) = attrs l ++ [(n, t)]) /\ (forall n t, slots (l' ++ [Slot n t]) = slots l' ++ [(n, t)]).
Proof.
  split; [intros n t; apply attrs_in|]. split; [intros n t; unfold slots; rewrite in_flat_map; split; [intros (c & Ic & H); destruct c; cbn in H; try contradiction; destruct H as [[= <- <-]|[]]; exact Ic|intros H; exists (Slot n t); split; [exact H|left; reflexivity]]|]. unfold attrs, slots. repeat split; intros; rewrite flat_map_app; cbn; [rewrite app_nil_r; reflexivity|reflexivity|reflexivity].
Qed.
Theorem C131_list element operands : verify_list_construct subtype element operands = true <-> forall t, In t operands -> subtype t element = true.
Proof. apply forallb_forall. Qed.
Theorem C131_dict key value keys values : verify_dict_construct subtype key value keys values = true <-> (forall t, In t keys -> subtype t key = true) /\ forall t, In t values -> subtype t value = true.
Proof. unfold verify_dict_construct. rewrite andb_true_iff, !forallb_forall. reflexivity. Qed.

(** ** Initializers *)
Lemma has_duplicate_spec : forall l, has_duplicate l = false <-> NoDup l.
Proof. induction l as [|n l IH]; cbn; [split; [constructor|reflexivity]|]. rewrite orb_false_iff, has_false, IH. split; [intros [H1 H2]; constructor; assumption|intros H; inversion H; auto]. Qed.
Lemma filter_nil {A} (f : A -> bool) : forall l, filter f l = [] <-> forall x, In x l -> f x = false.
Proof. induction l as [|x l IH]; cbn; [split; [intros _ x []|reflexivity]|]. destruct (f x) eqn:F; [split; [discriminate|intros H; specialize (H x (or_introl eq_refl)); congruence]|]. rewrite IH. split; [intros H y [<-|Iy]; auto|intros H y Iy; apply H; right; exact Iy]. Qed.
Lemma sorted_in l x : In x (EntryModel.sorted_set l) <-> In x l.
Proof. exact (proj2 (EntryProps.C129_sorted_set l) x). Qed.
Lemma slot_names_in s n : In n (slot_names s) <-> exists b, In (n, GlobalSlot b) s.
Proof. unfold slot_names. rewrite in_flat_map. split; [intros ([m x] & Ip & H); destruct x; cbn in H; try contradiction; destruct H as [<-|[]]; eauto|intros (b & H); exists (n, GlobalSlot b); split; [exact H|left; reflexivity]]. Qed.
Lemma lookup_nodup s n x : NoDup (map fst s) -> In (n, x) s -> lookup n s = Some x.
Proof. intros ND I1. apply C131_lookup. apply in_split in I1. destruct I1 as (s1 & s2 & ->). exists s1, s2. split; [reflexivity|]. rewrite map_app in ND. cbn in ND. apply NoDup_remove_2 in ND. intros Z. apply ND. apply in_or_app. left. exact Z. Qed.
Lemma lookup_in s n x : lookup n s = Some x -> In (n, x) s.
Proof. intros H. apply C131_lookup in H. destruct H as (s1 & s2 & -> & _). apply in_or_app. right. left. reflexivity. Qed.
Definition all_slots (s : symbols) (names : list string) : Prop := forall n, In n names <-> exists b, In (n, GlobalSlot b) s.
Lemma verify_bounds_spec s : NoDup (map fst s) -> forall names types, List.length types = List.length names -> (forall n, In n names -> exists b, In (n, GlobalSlot b) s) ->
  (verify_bounds subtype s names types = Accept <-> Forall2 (fun n t => exists b, In (n, GlobalSlot b) s /\ subtype t b = true) names types) /\ (verify_bounds subtype s names types = Accept \/ verify_bounds subtype s names types = Refuse [] []).
Proof.
  intros ND. induction names as [|n names IH]; intros [|t types] L K; try discriminate; [cbn; split; [split; [constructor|reflexivity]|left; reflexivity]|]. injection L as L. cbn [verify_bounds]. destruct (K n (or_introl eq_refl)) as (b & Ib). rewrite (lookup_nodup s n _ ND Ib). destruct (IH types L (fun m Im => K m (or_intror Im))) as [IH1 IH2]. destruct (subtype t b) eqn:Su.
  - split; [|exact IH2]. rewrite IH1. split; [intros H; constructor; [eauto|exact H]|intros H; inversion H; assumption].
  - split; [split; [discriminate|]|right; reflexivity]. intros H. inversion H as [|? ? ? ? (b' & Ib' & Su') _]; subst. pose proof (lookup_nodup s n _ ND Ib) as E1. pose proof (lookup_nodup s n _ ND Ib') as E2. congruence.
Qed.
Theorem C131_initializer_partial s k names types allowed : NoDup (map fst s) -> verify_initialize names types = true ->
  (verify_initializer subtype s k names types allowed = Accept <->
   k <= 1 /\ NoDup names /\ all_slots s names /\ Forall2 (fun n t => exists b, In (n, GlobalSlot b) s /\ subtype t b = true) names types /\ ~ In false allowed) /\
  verify_initializer subtype s k names types allowed <> Crash.
Proof.
  intros ND L. apply Nat.eqb_eq in L. unfold verify_initializer. destruct (Nat.ltb_spec 1 k) as [Lk|Lk]; [split; [split; [discriminate|intros (H & _); lia]|discriminate]|]. destruct (has_duplicate names) eqn:Hd; [split; [split; [discriminate|intros (_ & H & _); apply has_duplicate_spec in H; congruence]|discriminate]|]. apply has_duplicate_spec in Hd. cbv zeta.
  set (missing := filter _ _). set (unexpected := filter _ _).
  assert (Em : missing = [] <-> forall n, (exists b, In (n, GlobalSlot b) s) -> In n names).
  { unfold missing. rewrite filter_nil. split; intros H n Hn; [specialize (H n (proj2 (sorted_in _ n) (proj2 (slot_names_in s n) Hn))); apply negb_false_iff, has_in in H; exact H|apply negb_false_iff, has_in, H, slot_names_in, sorted_in; exact Hn]. }
  assert (Eu : unexpected = [] <-> forall n, In n names -> exists b, In (n, GlobalSlot b) s).
  { unfold unexpected. rewrite filter_nil. split; intros H n Hn; [specialize (H n (proj2 (sorted_in _ n) Hn)); apply negb_false_iff, has_in, slot_names_in in H; exact H|apply negb_false_iff, has_in, slot_names_in, H, sorted_in; exact Hn]. }
  assert (Both : missing = [] /\ unexpected = [] <-> all_slots s names) by (rewrite Em, Eu; unfold all_slots; split; [intros [H1 H2] n; split; auto|intros H; split; intros n Hn; apply H; exact Hn]).
  assert (Bad : ~ (missing = [] /\ unexpected = []) -> (Refuse missing unexpected = Accept <-> k <= 1 /\ NoDup names /\ all_slots s names /\ Forall2 (fun n t => exists b, In (n, GlobalSlot b) s /\ subtype t b = true) names types /\ ~ In false allowed) /\ Refuse missing unexpected <> Crash) by (intros N; split; [split; [discriminate|intros (_ & _ & H & _); apply Both in H; contradiction]|discriminate]).
  destruct missing as [|m0 missing']; [|apply Bad; intros [Z _]; discriminate]. destruct unexpected as [|u0 unexpected']; [|apply Bad; intros [_ Z]; discriminate]. clear Bad.
  assert (All : all_slots s names) by (apply Both; auto). destruct (verify_bounds_spec s ND names types L (fun n Hn => proj1 (All n) Hn)) as [B1 B2]. assert (Fa : forallb (fun b : bool => b) allowed = true <-> ~ In false allowed) by (rewrite forallb_forall; split; [intros H Z; specialize (H _ Z); discriminate|intros H [|] Ib; [reflexivity|contradiction]]).
  destruct B2 as [B2|B2]; rewrite B2 in *.
  - pose proof (proj1 B1 eq_refl) as B3. destruct (forallb (fun b : bool => b) allowed) eqn:Al; [split; [split; [intros _; repeat split; try assumption; try lia; [apply All|apply All|apply Fa; reflexivity]|reflexivity]|discriminate]|]. split; [split; [discriminate|intros (_ & _ & _ & _ & H); apply Fa in H; congruence]|discriminate].
  - split; [split; [discriminate|intros (_ & _ & _ & H & _); apply B1 in H; discriminate]|discriminate].
Qed.
(** the notes of a refused initializer are the slots without a value and the values without a slot, in order *)
Theorem C131_notes s k names types allowed missing unexpected : verify_initializer subtype s k names types allowed = Refuse missing unexpected -> (missing <> [] \/ unexpected <> []) ->
  (forall n, In n missing <-> (exists b, In (n, GlobalSlot b) s) /\ ~ In n names) /\ (forall n, In n unexpected <-> In n names /\ ~ exists b, In (n, GlobalSlot b) s) /\
  StronglySorted (fun a b => EntryModel.sltb a b = true) missing /\ StronglySorted (fun a b => EntryModel.sltb a b = true) unexpected.
Proof.
  assert (Sf : forall (f : string -> bool) l, StronglySorted (fun a b => EntryModel.sltb a b = true) l -> StronglySorted (fun a b => EntryModel.sltb a b = true) (filter f l)).
  { intros f. induction l as [|x l IH]; intros H; [constructor|]. inversion H as [|? ? H1 H2]; subst. cbn [filter]. destruct (f x); [|exact (IH H1)]. constructor; [exact (IH H1)|]. rewrite Forall_forall in *. intros y Iy. apply filter_In in Iy. exact (H2 y (proj1 Iy)). }
  assert (Vb : forall names types, verify_bounds subtype s names types = Accept \/ verify_bounds subtype s names types = Crash \/ verify_bounds subtype s names types = Refuse [] []).
  { induction names0 as [|n l IH]; intros [|t ts]; cbn; auto. destruct (lookup n s) as [[| |b|]|]; auto. destruct (subtype t b); auto. }
  unfold verify_initializer. destruct (1 <? k); [intros [= <- <-] [Z|Z]; contradiction|]. destruct (has_duplicate names); [intros [= <- <-] [Z|Z]; contradiction|]. cbv zeta. set (m := filter _ _). set (u := filter _ _). intros H N.
  assert (E : missing = m /\ unexpected = u).
  { destruct m as [|m0 m1]; [destruct u as [|u0 u1]|]; try (injection H as <- <-; auto). exfalso. destruct (Vb names types) as [V|[V|V]]; rewrite V in H; [destruct (forallb _ allowed); [discriminate|injection H as <- <-]|discriminate|injection H as <- <-]; destruct N as [N|N]; contradiction. }
  destruct E as [-> ->]. unfold m, u. split; [|split; [|split; apply Sf; apply (proj1 (EntryProps.C129_sorted_set _))]].
  - intros n. rewrite filter_In, sorted_in, slot_names_in, negb_true_iff, has_false. reflexivity.
  - intros n. rewrite filter_In, sorted_in, negb_true_iff, has_false, slot_names_in. reflexivity.
Qed.
(** more values than names crash the verifier: the count is verified later *)
Theorem C131_initializer_refuted : ~ forall s k names types allowed, NoDup (map fst s) -> verify_initializer subtype s k names types allowed <> Crash.
Proof. intros H. exact (H [] 1 [] [Scalar 0] [] (NoDup_nil _) eq_refl). Qed.
End Types.
Theorem C131_initialize names types : verify_initialize names types = true <-> List.length types = List.length names.
Proof. apply Nat.eqb_eq. Qed.
Theorem C131_bind l k b : verify_bind l k = Some b -> (b = true <-> List.length l = k /\ forall x, In x l -> x = SymbolicInt).
Proof.
  unfold verify_bind. destruct (Nat.eqb_spec (List.length l) k) as [E|N]; [|intros [= <-]; split; [discriminate|intros [Z _]; contradiction]]. intros H. enough (G : b = true <-> forall x, In x l -> x = SymbolicInt) by (rewrite G; tauto). clear E. revert b H. induction l as [|x l IH]; intros b H; [injection H as <-; split; [intros _ x []|reflexivity]|]. destruct x; cbn in H; [rewrite (IH b H); split; [intros Z y [<-|Iy]; auto|intros Z y Iy; apply Z; right; exact Iy]|injection H as <-; split; [discriminate|intros Z; specialize (Z _ (or_introl eq_refl)); discriminate]|discriminate].
Qed.
Theorem C131_bind_total l k : ~ In BlockArgument l -> verify_bind l k <> None.
Proof. unfold verify_bind. destruct (List.length l =? k); [|discriminate]. induction l as [|x l IH]; intros N; [discriminate|]. destruct x; cbn; [apply IH; intros Z; apply N; right; exact Z|discriminate|intros _; apply N; left; reflexivity]. Qed.
(** a shape symbol that is an argument of a block has no operation to look at *)
Theorem C131_bind_refuted : ~ forall l k, verify_bind l k <> None.
Proof. intros H. exact (H [SymbolicInt; BlockArgument] 2 eq_refl). Qed.
Theorem C131_arg_attribute func arg name a : verify_arg_attribute func arg name a = true <-> name = "torch.type_bound" /\ exists inputs n m, func = Some inputs /\ a = TypeAttr (Tensor n) /\ nth_error inputs arg = Some (Tensor m).
Proof.
  unfold verify_arg_attribute. destruct (String.eqb_spec name "torch.type_bound") as [->|N]; [|split; [discriminate|intros [Z _]; contradiction]]. split.
  - destruct func as [i|]; [|discriminate]. destruct a as [t|]; [|discriminate]. destruct t; try discriminate. cbn [is_tensor andb]. intros H. split; [reflexivity|]. destruct (nth_error i arg) as [t|] eqn:Hn; [|apply nth_error_None in Hn; rewrite nth_overflow in H by exact Hn; discriminate]. rewrite (nth_error_nth i arg _ Hn) in H. destruct t; try discriminate. exists i, n, n0. auto.
  - intros (_ & i & n & m & -> & -> & Hn). cbn [is_tensor andb]. rewrite (nth_error_nth i arg _ Hn). reflexivity.
Qed.
Definition same (a b : ty) : bool := match a, b with Tensor n, Tensor m => n =? m | NnModule c, NnModule d => (c =? d)%string | Scalar n, Scalar m => n =? m | _, _ => false end.
Example C131_nonvacuous :
  verify_class [] [Attr "a" (Tensor 0); Method "f" "c.f"; Attr "b" (Scalar 1)] = true /\ verify_class [] [Attr "a" (Tensor 0); Method "a" "c.a"] = false /\
  verify_method [("g", OtherSymbol); ("c.f", Func true true [NnModule "c"; Tensor 0])] "c" "c.f" = true /\
  verify_nn_module_symbols same [("c", Class [Attr "a" (Tensor 0); Method "f" "c.f"; Attr "b" (Scalar 1)])] "c" [Slot "a" (Tensor 0); Slot "b" (Scalar 1); Terminator] = true /\
  verify_initializer same [("x", GlobalSlot (Tensor 0)); ("y", GlobalSlot (Scalar 1)); ("f", Func false true [])] 1 ["y"; "x"] [Scalar 1; Tensor 0] [true; true] = Accept /\
  verify_initializer same [("x", GlobalSlot (Tensor 0)); ("y", GlobalSlot (Scalar 1))] 1 ["z"; "x"] [Scalar 1; Tensor 0] [true] = Refuse ["y"] ["z"] /\
  verify_bind [SymbolicInt; SymbolicInt] 2 = Some true /\ verify_arg_attribute (Some [Scalar 0; Tensor 1]) 1 "torch.type_bound" (TypeAttr (Tensor 2)) = true.
Proof. repeat split. Qed.
Print Assumptions C131_class.
Print Assumptions C131_method.
Print Assumptions C131_nn_module.
Print Assumptions C131_lookup.
Print Assumptions C131_nn_module_symbols.
Print Assumptions C131_children.
Print Assumptions C131_list.
Print Assumptions C131_dict.
Print Assumptions C131_initializer_partial.
Print Assumptions C131_notes.
Print Assumptions C131_initializer_refuted.
Print Assumptions C131_initialize.
Print Assumptions C131_bind.
Print Assumptions C131_bind_total.
Print Assumptions C131_bind_refuted.
Print Assumptions C131_arg_attribute.
