(** C55, C56: the verdict of the test harness. *)
From Coq Require Import ZArith QArith Qabs Lia Lqa Bool Ascii String Permutation List.
From Verif Require Import Prelude OnnxModel OnnxSpec HarnessModel HarnessSpec.
Import ListNotations.
Open Scope string_scope.
Open Scope list_scope.
Open Scope nat_scope.

(** * Sorting names *)
Lemma numel_count shape : numel shape = element_count shape.
Proof. unfold numel, element_count. symmetry. apply fold_symmetric; intros; lia. Qed.
Lemma ascii_compare_lt_trans a b c : Ascii.compare a b = Lt -> Ascii.compare b c = Lt -> Ascii.compare a c = Lt.
Proof. unfold Ascii.compare. rewrite !N.compare_lt_iff. lia. Qed.
Lemma ascii_compare_eq a b : Ascii.compare a b = Eq <-> a = b.
Proof.
  unfold Ascii.compare. rewrite N.compare_eq_iff. split; [|intros ->; reflexivity]. intros H. rewrite <- (ascii_N_embedding a), <- (ascii_N_embedding b), H. reflexivity.
Qed.
Lemma compare_lt_trans : forall a b c, String.compare a b = Lt -> String.compare b c = Lt -> String.compare a c = Lt.
Proof.
  induction a as [|x a IH]; intros [|y b] [|z c]; cbn; try discriminate; auto.
  destruct (Ascii.compare x y) eqn:XY; try discriminate; destruct (Ascii.compare y z) eqn:YZ; try discriminate; intros H1 H2.
  - apply ascii_compare_eq in XY, YZ. subst. replace (Ascii.compare z z) with Eq by (symmetry; apply ascii_compare_eq; reflexivity). eapply IH; eauto.
  - apply ascii_compare_eq in XY. subst. rewrite YZ. reflexivity.
  - apply ascii_compare_eq in YZ. subst. rewrite XY. reflexivity.
  - rewrite (ascii_compare_lt_trans _ _ _ XY YZ). reflexivity.
Qed.
Lemma compare_refl a : String.compare a a = Eq.
Proof. induction a as [|x a IH]; [reflexivity|]. cbn. rewrite (proj2 (ascii_compare_eq x x) eq_refl). exact IH. Qed.
Lemma leb_trans a b c : String.leb a b = true -> String.leb b c = true -> String.leb a c = true.
Proof.
  unfold String.leb. destruct (String.compare a b) eqn:AB; try discriminate; destruct (String.compare b c) eqn:BC; try discriminate; intros _ _.
  - apply String.compare_eq_iff in AB, BC. subst. rewrite compare_refl. reflexivity.
  - apply String.compare_eq_iff in AB. subst. rewrite BC. reflexivity.
  - apply String.compare_eq_iff in BC. subst. rewrite AB. reflexivity.
  - rewrite (compare_lt_trans _ _ _ AB BC). reflexivity.
Qed.
Lemma leb_flip a b : String.leb a b = false -> String.leb b a = true.
Proof. intros H. destruct (String.leb_total a b); congruence. Qed.
Lemma insert_key_perm k l : Permutation (insert_key k l) (k :: l).
Proof. induction l as [|x l IH]; cbn; [auto|]. destruct (String.leb k x); [auto|]. rewrite IH. apply perm_swap. Qed.
Lemma sort_keys_perm l : Permutation (sort_keys l) l.
Proof. induction l as [|x l IH]; cbn; [auto|]. rewrite insert_key_perm. auto. Qed.
Lemma insert_key_comm a b l : insert_key a (insert_key b l) = insert_key b (insert_key a l).
Proof.
  induction l as [|x l IH]; cbn.
  - destruct (String.leb a b) eqn:AB, (String.leb b a) eqn:BA; try reflexivity.
    + rewrite (String.leb_antisym _ _ AB BA). reflexivity.
    + apply leb_flip in AB. congruence.
  - destruct (String.leb b x) eqn:BX, (String.leb a x) eqn:AX; cbn; rewrite ?BX, ?AX.
    + destruct (String.leb a b) eqn:AB, (String.leb b a) eqn:BA; try reflexivity.
      * rewrite (String.leb_antisym _ _ AB BA). reflexivity.
      * apply leb_flip in AB. congruence.
    + assert (String.leb a b = false) as ->. { destruct (String.leb a b) eqn:AB; [|reflexivity]. rewrite (leb_trans _ _ _ AB BX) in AX. discriminate. } reflexivity.
    + assert (String.leb b a = false) as ->. { destruct (String.leb b a) eqn:BA; [|reflexivity]. rewrite (leb_trans _ _ _ BA AX) in BX. discriminate. } reflexivity.
    + rewrite IH. reflexivity.
Qed.
Lemma sort_keys_eq a b : Permutation a b -> sort_keys a = sort_keys b.
Proof. induction 1 as [|x a b _ IH|x y a|]; cbn [sort_keys fold_right]; [reflexivity|exact (f_equal (insert_key x) IH)|apply insert_key_comm|congruence]. Qed.
Lemma sorted_same a b : sort_keys a = sort_keys b <-> Permutation a b.
Proof. split; [|apply sort_keys_eq]. intros H. rewrite <- (sort_keys_perm a), H. apply sort_keys_perm. Qed.

(** * Floats *)
Lemma Qpos_iff y : Qpos y = true <-> (0 < y)%Q.
Proof. unfold Qpos. rewrite negb_true_iff. split; [intros H; apply Qnot_le_lt; rewrite <- Qle_bool_iff; congruence|]. intros H. destruct (Qle_bool y 0) eqn:E; [|reflexivity]. apply Qle_bool_iff in E. lra. Qed.
Lemma not_le_bool x q : negb (Qle_bool x q) = false <-> (x <= q)%Q.
Proof. rewrite negb_false_iff. apply Qle_bool_iff. Qed.
Lemma accepted_iff x g : (exists r, fl_div (fl_abs (fl_sub x g)) g = Some r /\ fl_gt r float_tolerance = false) <-> float_accepted x g.
Proof.
  split.
  - intros (r & H & G). destruct g as [y| | |]; try (apply fa_special; auto; fail). unfold fl_div in H. destruct (Qeq_bool y 0) eqn:Z; [discriminate|].
    assert (NZ : ~ (y == 0)%Q) by (rewrite <- Qeq_bool_iff; congruence). injection H as <-.
    destruct (Q_dec 0 y) as [[P|N]|E]; [|apply fa_negative; exact N|lra].
    destruct x as [q| | |]; cbn [fl_sub fl_abs fl_gt] in G; try (rewrite (proj2 (Qpos_iff y) P) in G; discriminate); [|apply fa_nan; exact P].
    apply fa_close; [exact P|]. apply not_le_bool in G. unfold close. rewrite (Qabs_pos y) by lra. unfold float_tolerance in G.
    apply (Qmult_le_r _ _ y P) in G. unfold Qdiv in G. rewrite <- Qmult_assoc in G. setoid_replace (/ y * y)%Q with 1%Q in G by (rewrite Qmult_comm; apply Qmult_inv_r; exact NZ). lra.
  - intros H. destruct H as [q y P C|y P|v y N|v g S].
    + cbn [fl_sub fl_abs fl_div]. assert (NZ : ~ (y == 0)%Q) by lra. destruct (Qeq_bool y 0) eqn:Z; [apply Qeq_bool_iff in Z; contradiction|]. eexists. split; [reflexivity|]. cbn [fl_gt]. apply not_le_bool.
      unfold close in C. rewrite (Qabs_pos y) in C by lra. unfold float_tolerance. apply (Qmult_le_r _ _ y P). unfold Qdiv. rewrite <- Qmult_assoc. setoid_replace (/ y * y)%Q with 1%Q by (rewrite Qmult_comm; apply Qmult_inv_r; exact NZ). lra.
    + cbn. destruct (Qeq_bool y 0) eqn:Z; [apply Qeq_bool_iff in Z; lra|]. eexists. split; reflexivity.
    + unfold fl_div. destruct (Qeq_bool y 0) eqn:Z; [apply Qeq_bool_iff in Z; lra|]. eexists. split; [reflexivity|].
      assert (P : Qpos y = false). { destruct (Qpos y) eqn:P; [|reflexivity]. apply Qpos_iff in P. lra. }
      destruct v as [q| | |]; cbn [fl_sub fl_abs fl_gt]; try (rewrite P; reflexivity); [|reflexivity]. apply not_le_bool. unfold float_tolerance.
      pose proof (Qabs_nonneg (q - y)) as A. assert (I : (/ y < 0)%Q). { setoid_replace (/ y)%Q with (- / (- y))%Q by (field; lra). assert (0 < / - y)%Q by (apply Qinv_lt_0_compat; lra). lra. }
      unfold Qdiv. assert (B : (0 <= Qabs (q - y) * - / y)%Q) by (apply Qmult_le_0_compat; lra). lra.
    + destruct S as [ -> |[ -> | -> ]]; destruct v; eexists; split; reflexivity.
Qed.
Lemma isclose_iff v g : isclose rtol atol v g = true <-> element_close v g.
Proof.
  unfold isclose. split.
  - destruct v, g; try discriminate; intros H; try (apply ec_same; auto; fail). apply ec_finite. apply Qle_bool_iff in H. rewrite Qabs_Qmult in H. exact H.
  - intros H. destruct H as [x y H|g S]; [apply Qle_bool_iff; rewrite Qabs_Qmult; exact H|]. destruct S as [ -> |[ -> | -> ]]; reflexivity.
Qed.

(** * Values *)
Section ValueInd.
  Context (P : value -> Prop).
  Hypothesis (H1 : forall f, P (VFloat f)) (H2 : forall z, P (VInt z)) (H3 : forall b, P (VBool b)) (H4 : forall s, P (VStr s))
    (H5 : forall l, Forall P l -> P (VTuple l)) (H6 : forall l, Forall P l -> P (VList l)) (H7 : forall l, Forall (fun p => P (snd p)) l -> P (VDict l))
    (H8 : forall t, P (VTensor t)) (H9 : P VOther).
  Fixpoint value_nested_ind (v : value) : P v :=
    match v with
    | VFloat f => H1 f | VInt z => H2 z | VBool b => H3 b | VStr s => H4 s
    | VTuple l => H5 l ((fix go l := match l return Forall P l with [] => Forall_nil _ | x :: r => Forall_cons x (value_nested_ind x) (go r) end) l)
    | VList l => H6 l ((fix go l := match l return Forall P l with [] => Forall_nil _ | x :: r => Forall_cons x (value_nested_ind x) (go r) end) l)
    | VDict l => H7 l ((fix go l := match l return Forall (fun p => P (snd p)) l with [] => Forall_nil _ | x :: r => Forall_cons x (value_nested_ind (snd x)) (go r) end) l)
    | VTensor t => H8 t
    | VOther => H9
    end.
End ValueInd.
Lemma peel_unwraps v : unwraps v (peel v).
Proof. destruct v as [| | | |[|x [|y l]]| | | |]; cbn; try (apply uw_same; discriminate). apply uw_one. Qed.
Lemma unwraps_peel v w : unwraps v w -> w = peel v.
Proof. intros [x|u N]; [reflexivity|]. destruct u as [| | | |[|x [|y l]]| | | |]; try reflexivity. elim (N x). reflexivity. Qed.
Lemma agrees_peel v g : agrees v g <-> same (peel v) (peel g).
Proof.
  split; [intros [a b a' b' A B S]; apply unwraps_peel in A, B; subst; exact S|]. intros S. exact (ag _ _ _ _ (peel_unwraps v) (peel_unwraps g) S).
Qed.
(** The reports made by the loops. *)
Definition reports (mk : nat -> step) (ctx : list step) := fix go (i : nat) (l : list value) : list (value -> option (list reason)) :=
  match l with [] => [] | g :: r => (fun x => evaluate (peel g) (ctx ++ [mk i]) (peel x)) :: go (S i) r end.
Definition dict_reports (ctx : list step) (gs : list (string * value)) :=
  map (fun p => (fst p, fun x => evaluate (peel (snd p)) (ctx ++ [DictElement (fst p)]) (peel x))) gs.
Lemma evaluate_tuple gs ctx vs : evaluate (VTuple gs) ctx (VTuple vs) =
  if negb (length vs =? length gs) then Some [(ctx, WrongLength)] else elements (reports TupleElement ctx 0 gs) vs.
Proof. reflexivity. Qed.
Lemma evaluate_list gs ctx vs : evaluate (VList gs) ctx (VList vs) =
  if negb (length vs =? length gs) then Some [(ctx, WrongLength)] else elements (reports ListElement ctx 0 gs) vs.
Proof. reflexivity. Qed.
Lemma evaluate_dict gs ctx vs : evaluate (VDict gs) ctx (VDict vs) =
  if negb (list_string_eqb (sort_keys (map fst gs)) (sort_keys (map fst vs))) then Some [(ctx, WrongKeys)] else keyed (dict_reports ctx gs) vs (sort_keys (map fst gs)).
Proof. reflexivity. Qed.
Lemma app_nil_both {A} (a b : list A) : a ++ b = [] -> a = [] /\ b = [].
Proof. destruct a; [auto|discriminate]. Qed.
Lemma list_string_eqb_iff a b : list_string_eqb a b = true <-> a = b.
Proof. unfold list_string_eqb. destruct (list_eq_dec string_dec a b); split; congruence. Qed.
Lemma list_nat_eqb_iff a b : list_nat_eqb a b = true <-> a = b.
Proof. unfold list_nat_eqb. destruct (list_eq_dec Nat.eq_dec a b); split; congruence. Qed.

Definition exact (g : value) : Prop := forall ctx v, evaluate g ctx v = Some [] <-> same v g.
Lemma elements_exact mk ctx gs : Forall (fun g => exact (peel g)) gs -> forall i vs, length vs = length gs -> (elements (reports mk ctx i gs) vs = Some [] <-> Forall2 agrees vs gs).
Proof.
  induction 1 as [|g gs E _ IH]; intros i [|v vs] L; cbn [length] in L; try lia; [split; constructor|]. cbn [reports elements]. split.
  - destruct (evaluate (peel g) (ctx ++ [mk i]) (peel v)) as [a|] eqn:A; [|discriminate]. cbn [obind]. destruct (elements (reports mk ctx (S i) gs) vs) as [b|] eqn:B; [|discriminate].
    cbn [obind]. intros [= H]. apply app_nil_both in H as [-> ->]. constructor; [apply agrees_peel; apply (proj1 (E _ _) A)|apply (IH (S i)); [lia|exact B]].
  - intros F. inversion F as [|? ? ? ? F1 F2]; subst. apply agrees_peel in F1. rewrite (proj2 (E _ _) F1). cbn [obind]. rewrite (proj2 (IH (S i) vs (eq_add_S _ _ L)) F2). reflexivity.
Qed.
Lemma lookup_reports ctx gs k : lookup (dict_reports ctx gs) k = option_map (fun g => (fun x => evaluate (peel g) (ctx ++ [DictElement k]) (peel x))) (lookup gs k).
Proof. unfold dict_reports. induction gs as [|[a g] gs IH]; [reflexivity|]. cbn [map lookup fst snd]. destruct (String.eqb_spec a k) as [->|]; [reflexivity|exact IH]. Qed.
Lemma lookup_In {A} (l : list (string * A)) k v : lookup l k = Some v -> In (k, v) l.
Proof. induction l as [|[a g] l IH]; [discriminate|]. cbn. destruct (String.eqb_spec a k) as [->|]; [intros [= ->]; auto|auto]. Qed.
Lemma lookup_some_key {A} (l : list (string * A)) k : In k (map fst l) -> exists v, lookup l k = Some v.
Proof. induction l as [|[a g] l IH]; [intros []|]. cbn. destruct (String.eqb_spec a k) as [->|]; [eauto|]. intros [E|I]; [contradiction|auto]. Qed.
Lemma keyed_exact ctx gs vs : Forall (fun p => exact (peel (snd p))) gs -> forall ks, (forall k, In k ks -> In k (map fst gs) /\ In k (map fst vs)) ->
  (keyed (dict_reports ctx gs) vs ks = Some [] <-> (forall k g, In k ks -> lookup gs k = Some g -> exists v, lookup vs k = Some v /\ agrees v g)).
Proof.
  intros E ks. induction ks as [|k ks IH]; intros K; cbn [keyed]; [split; [intros _ ? ? []|reflexivity]|].
  destruct (K k (or_introl eq_refl)) as [KG KV]. destruct (lookup_some_key gs k KG) as [g G]. destruct (lookup_some_key vs k KV) as [v V]. rewrite lookup_reports, G, V. cbn [obind option_map].
  assert (EG : exact (peel g)) by (rewrite Forall_forall in E; exact (E _ (lookup_In _ _ _ G))). assert (K' : forall k, In k ks -> In k (map fst gs) /\ In k (map fst vs)) by (intros; apply K; right; assumption). specialize (IH K').
  split.
  - destruct (evaluate (peel g) (ctx ++ [DictElement k]) (peel v)) as [a|] eqn:A; [|discriminate]. cbn [obind]. destruct (keyed (dict_reports ctx gs) vs ks) as [b|] eqn:B; [|discriminate]. cbn [obind].
    intros [= H]. apply app_nil_both in H as [-> ->]. intros k' g' [<-|I] G'; [|apply (proj1 IH eq_refl); assumption]. exists v. split; [exact V|]. rewrite G in G'. injection G' as <-. apply agrees_peel. apply (proj1 (EG _ _) A).
  - intros H. destruct (H k g (or_introl eq_refl) G) as (v' & V' & AG). rewrite V in V'. injection V' as <-. apply agrees_peel in AG. rewrite (proj2 (EG _ _) AG). cbn [obind]. rewrite (proj2 IH); [reflexivity|]. intros; apply H; [right; assumption|assumption].
Qed.
Lemma as_int_iff v z : as_int v = Some z <-> number v z.
Proof. split; [|intros [x| |]; reflexivity]. destruct v as [| |[]| | | | | |]; cbn; intros [= <-]; constructor. Qed.
Lemma evaluate_exact_both g : exact g /\ exact (peel g).
Proof.
  induction g as [f|z|b|s|gs IH|gs IH|gs IH|t|] using value_nested_ind.
  - assert (E : exact (VFloat f)); [|exact (conj E E)]. intros ctx v. split.
    + destruct v as [x| | | | | | | |]; try discriminate. cbn [evaluate]. intros H. apply sm_float. apply accepted_iff. destruct (fl_div _ _) as [r|]; [|discriminate]. exists r. split; [reflexivity|]. cbn [obind] in H. destruct (fl_gt r float_tolerance); [discriminate|reflexivity].
    + intros S. inversion S as [x y A|? ? z N1 N2| | | | |]; subst; [|inversion N2]. cbn [evaluate]. apply accepted_iff in A as (r & -> & G). cbn [obind]. rewrite G. reflexivity.
  - assert (E : exact (VInt z)); [|exact (conj E E)]. intros ctx v. cbn [evaluate]. split.
    + destruct (as_int v) as [x|] eqn:V; [|discriminate]. cbn [as_int]. destruct (Z.eqb_spec x z) as [->|]; [|discriminate]. intros _. apply (sm_int _ _ z); [apply as_int_iff; exact V|constructor].
    + intros S. inversion S as [|? ? y N1 N2| | | | |]; subst. inversion N2; subst. rewrite (proj2 (as_int_iff _ _) N1). cbn [as_int]. rewrite Z.eqb_refl. reflexivity.
  - assert (E : exact (VBool b)); [|exact (conj E E)]. intros ctx v. cbn [evaluate]. split.
    + destruct (as_int v) as [x|] eqn:V; [|discriminate]. destruct (as_int (VBool b)) as [y|] eqn:B; [|discriminate]. destruct (Z.eqb_spec x y) as [->|]; [|discriminate]. intros _. apply (sm_int _ _ y); apply as_int_iff; assumption.
    + intros S. inversion S as [|? ? y N1 N2| | | | |]; subst. rewrite (proj2 (as_int_iff _ _) N1), (proj2 (as_int_iff _ _) N2), Z.eqb_refl. reflexivity.
  - assert (E : exact (VStr s)); [|exact (conj E E)]. intros ctx v. split.
    + destruct v; try discriminate. cbn [evaluate]. destruct (String.eqb_spec s0 s) as [->|]; [|discriminate]. intros _. apply sm_str.
    + intros S. inversion S as [|? ? y N1 N2| | | | |]; subst; [inversion N2|]. cbn [evaluate]. rewrite String.eqb_refl. reflexivity.
  - assert (C : Forall (fun g => exact (peel g)) gs) by (eapply Forall_impl; [|exact IH]; intros ? []; assumption).
    assert (E : exact (VTuple gs)).
    { intros ctx v. split.
      - destruct v; try discriminate. rewrite evaluate_tuple. destruct (Nat.eqb_spec (length l) (length gs)) as [L|]; [|discriminate]. cbn [negb]. intros H. apply sm_tuple. exact (proj1 (elements_exact _ _ _ C _ _ L) H).
      - intros S. inversion S as [|? ? y N1 N2| |vs gs' F| | |]; subst; [inversion N2|]. rewrite evaluate_tuple. rewrite (Forall2_len _ _ _ _ _ F), Nat.eqb_refl. cbn [negb]. apply (elements_exact _ _ _ C); [apply (Forall2_len _ _ _ _ _ F)|exact F]. }
    split; [exact E|]. destruct gs as [|x [|y l]]; cbn [peel]; try exact E. inversion IH as [|? ? X]; subst. apply X.
  - assert (C : Forall (fun g => exact (peel g)) gs) by (eapply Forall_impl; [|exact IH]; intros ? []; assumption).
    assert (E : exact (VList gs)); [|exact (conj E E)]. intros ctx v. split.
    + destruct v; try discriminate. rewrite evaluate_list. destruct (Nat.eqb_spec (length l) (length gs)) as [L|]; [|discriminate]. cbn [negb]. intros H. apply sm_list. exact (proj1 (elements_exact _ _ _ C _ _ L) H).
    + intros S. inversion S as [|? ? y N1 N2| | |vs gs' F| |]; subst; [inversion N2|]. rewrite evaluate_list. rewrite (Forall2_len _ _ _ _ _ F), Nat.eqb_refl. cbn [negb]. apply (elements_exact _ _ _ C); [apply (Forall2_len _ _ _ _ _ F)|exact F].
  - assert (C : Forall (fun p => exact (peel (snd p))) gs) by (eapply Forall_impl; [|exact IH]; intros ? []; assumption).
    assert (E : exact (VDict gs)); [|exact (conj E E)]. intros ctx v. split.
    + destruct v; try discriminate. rewrite evaluate_dict. destruct (list_string_eqb _ _) eqn:K; [|discriminate]. apply list_string_eqb_iff, sorted_same in K. cbn [negb]. intros H. apply sm_dict; [symmetry; exact K|].
      assert (KS : forall k, In k (sort_keys (map fst gs)) -> In k (map fst gs) /\ In k (map fst l)).
      { intros k I. rewrite sort_keys_perm in I. split; [exact I|]. rewrite <- K. exact I. }
      intros k g G. apply (proj1 (keyed_exact _ _ _ C _ KS) H); [|exact G]. rewrite sort_keys_perm. apply lookup_In in G. exact (in_map fst _ _ G).
    + intros S. inversion S as [|? ? y N1 N2| | | |vs gs' K F|]; subst; [inversion N2|]. rewrite evaluate_dict. replace (list_string_eqb _ _) with true by (symmetry; apply list_string_eqb_iff, sorted_same; symmetry; exact K). cbn [negb].
      apply (keyed_exact _ _ _ C); [|intros; apply F; assumption]. intros k I. rewrite sort_keys_perm in I. split; [exact I|]. rewrite K. exact I.
  - assert (E : exact (VTensor t)); [|exact (conj E E)]. intros ctx v. split.
    + destruct v; try discriminate. cbn [evaluate]. destruct (list_nat_eqb _ _) eqn:A; [|discriminate]. cbn [negb]. destruct (String.eqb_spec (t_dtype t0) (t_dtype t)) as [D|]; [|discriminate]. cbn [negb].
      destruct (allclose _ _ _ _) eqn:C; [|discriminate]. intros _. apply list_nat_eqb_iff in A. apply sm_tensor; [exact A|exact D|]. intros i I. apply isclose_iff. unfold allclose in C. rewrite forallb_forall in C. apply C. apply in_seq. rewrite numel_count. lia.
    + intros S. inversion S as [|? ? y N1 N2| | | | |a b A D C]; subst; [inversion N2|]. cbn [evaluate]. rewrite A, D, String.eqb_refl. replace (list_nat_eqb _ _) with true by (symmetry; apply list_nat_eqb_iff; reflexivity). cbn [negb].
      replace (allclose _ _ _ _) with true; [reflexivity|]. symmetry. apply forallb_forall. intros i I. apply isclose_iff, C. rewrite <- numel_count. apply in_seq in I. lia.
  - assert (E : exact VOther); [|exact (conj E E)]. intros ctx v. split; [discriminate|]. intros S. inversion S as [|? ? y N1 N2| | | | |]; subst. inversion N2.
Qed.

(** C55: a value passes exactly when it agrees with the golden one. *)
Theorem C55_value v g ctx : value_report v g ctx = Some [] <-> agrees v g.
Proof. unfold value_report. rewrite agrees_peel. apply evaluate_exact_both. Qed.

(** Paths below a value that is not unwrapped any more. *)
Inductive below : list step -> value -> value -> Prop :=
| be_here v : below [] v v
| be_tuple i p l x w : nth_error l i = Some x -> below p (peel x) w -> below (TupleElement i :: p) (VTuple l) w
| be_list i p l x w : nth_error l i = Some x -> below p (peel x) w -> below (ListElement i :: p) (VList l) w
| be_dict k p l x w : lookup l k = Some x -> below p (peel x) w -> below (DictElement k :: p) (VDict l) w.
Lemma below_inside p u w : below p u w -> forall v, unwraps v u -> inside p v w.
Proof.
  induction 1 as [v0|i p l x w N B IH|i p l x w N B IH|k p l x w N B IH]; intros v U; [apply in_here; exact U|eapply in_tuple|eapply in_list|eapply in_dict]; eauto using peel_unwraps.
Qed.
Definition pointed (g : value) : Prop := forall ctx v l p k, evaluate g ctx v = Some l -> In (p, k) l ->
  exists q v' g', p = ctx ++ q /\ below q v v' /\ below q g g' /\ wrong k v' g'.
Ltac here := match goal with
  | H : Some _ = Some ?l, I : In _ ?l |- _ => injection H as <-; destruct I as [I|[]]; injection I as <- <-; eexists [], _, _; split; [symmetry; apply app_nil_r|]; split; [apply be_here|]; split; [apply be_here|]
  end.
Lemma elements_pointed mk ctx gs : Forall (fun g => pointed (peel g)) gs -> forall i vs l p k, elements (reports mk ctx i gs) vs = Some l -> In (p, k) l ->
  exists j g v q v' g', nth_error gs j = Some g /\ nth_error vs j = Some v /\ p = ctx ++ mk (i + j) :: q /\ below q (peel v) v' /\ below q (peel g) g' /\ wrong k v' g'.
Proof.
  induction 1 as [|g gs P _ IH]; intros i [|v vs] l p k H I; cbn [reports elements] in H; try (injection H as <-; destruct I; fail).
  destruct (evaluate (peel g) (ctx ++ [mk i]) (peel v)) as [a|] eqn:A; [|discriminate]. cbn [obind] in H. destruct (elements (reports mk ctx (S i) gs) vs) as [b|] eqn:B; [|discriminate]. injection H as <-.
  apply in_app_iff in I as [I|I].
  - destruct (P _ _ _ _ _ A I) as (q & v' & g' & -> & X). exists 0, g, v, q, v', g'. rewrite Nat.add_0_r, <- app_assoc. split; [reflexivity|]. split; [reflexivity|]. split; [reflexivity|exact X].
  - destruct (IH _ _ _ _ _ B I) as (j & g0 & v0 & q & v' & g' & G & V & -> & X). exists (S j), g0, v0, q, v', g'. rewrite Nat.add_succ_r. auto.
Qed.
Lemma keyed_pointed ctx gs vs : Forall (fun p => pointed (peel (snd p))) gs -> forall ks l p k, keyed (dict_reports ctx gs) vs ks = Some l -> In (p, k) l ->
  exists j g v q v' g', lookup gs j = Some g /\ lookup vs j = Some v /\ p = ctx ++ DictElement j :: q /\ below q (peel v) v' /\ below q (peel g) g' /\ wrong k v' g'.
Proof.
  intros E ks. induction ks as [|j ks IH]; intros l p k H I; cbn [keyed] in H; [injection H as <-; destruct I|].
  rewrite lookup_reports in H. destruct (lookup vs j) as [v|] eqn:V; [|discriminate]. destruct (lookup gs j) as [g|] eqn:G; [|discriminate]. cbn [obind option_map] in H.
  destruct (evaluate (peel g) (ctx ++ [DictElement j]) (peel v)) as [a|] eqn:A; [|discriminate]. cbn [obind] in H. destruct (keyed (dict_reports ctx gs) vs ks) as [b|] eqn:B; [|discriminate]. injection H as <-.
  apply in_app_iff in I as [I|I]; [|eapply IH; eauto]. rewrite Forall_forall in E. destruct (E _ (lookup_In _ _ _ G) _ _ _ _ _ A I) as (q & v' & g' & -> & X). exists j, g, v, q, v', g'. rewrite <- app_assoc. auto.
Qed.
Lemma evaluate_pointed_both g : pointed g /\ pointed (peel g).
Proof.
  induction g as [f|z|b|s|gs IH|gs IH|gs IH|t|] using value_nested_ind.
  - assert (E : pointed (VFloat f)); [|exact (conj E E)]. intros ctx v l p k H I.
    destruct v as [x| | | | | | | |]; cbn [evaluate] in H; try (here; apply wr_type; discriminate).
    destruct (fl_div (fl_abs (fl_sub x f)) f) as [r|] eqn:D; [|discriminate]. cbn [obind] in H. destruct (fl_gt r float_tolerance) eqn:G; [|injection H as <-; destruct I]. here.
    apply wr_float. intros A. apply accepted_iff in A as (r' & D' & G'). congruence.
  - assert (E : pointed (VInt z)); [|exact (conj E E)]. intros ctx v l p k H I. cbn [evaluate] in H. destruct (as_int v) as [x|] eqn:V; cbn [as_int] in H.
    + destruct (Z.eqb_spec x z) as [->|N]; [injection H as <-; destruct I|]. here. apply (wr_int _ _ x z); [apply as_int_iff; exact V|constructor|exact N].
    + here. apply wr_type; [|discriminate]. destruct v; discriminate.
  - assert (E : pointed (VBool b)); [|exact (conj E E)]. intros ctx v l p k H I. cbn [evaluate] in H. destruct (as_int v) as [x|] eqn:V.
    + destruct (as_int (VBool b)) as [y|] eqn:B; [|destruct b; discriminate]. destruct (Z.eqb_spec x y) as [->|N]; [injection H as <-; destruct I|]. here. apply (wr_int _ _ x y); [apply as_int_iff; exact V|apply as_int_iff; exact B|exact N].
    + here. apply wr_type; [|discriminate]. destruct v; discriminate.
  - assert (E : pointed (VStr s)); [|exact (conj E E)]. intros ctx v l p k H I. destruct v; cbn [evaluate] in H; try (here; apply wr_type; discriminate).
    destruct (String.eqb_spec s0 s) as [->|N]; [injection H as <-; destruct I|]. here. apply wr_str. exact N.
  - assert (C : Forall (fun g => pointed (peel g)) gs) by (eapply Forall_impl; [|exact IH]; intros ? []; assumption).
    assert (E : pointed (VTuple gs)).
    { intros ctx v l p k H I. destruct v as [| | | |vs| | | |]; try (cbn [evaluate] in H; here; apply wr_type; discriminate). rewrite evaluate_tuple in H. destruct (Nat.eqb_spec (length vs) (length gs)) as [L|N]; cbn [negb] in H.
      - destruct (elements_pointed _ _ _ C _ _ _ _ _ H I) as (j & g & w & q & v' & g' & G & V & -> & B1 & B2 & W). exists (TupleElement j :: q), v', g'. split; [reflexivity|]. split; [eapply be_tuple; eauto|]. split; [eapply be_tuple; eauto|exact W].
      - here. apply wr_tuple. exact N. }
    split; [exact E|]. destruct gs as [|x [|y r]]; cbn [peel]; try exact E. inversion IH as [|? ? X]; subst. apply X.
  - assert (C : Forall (fun g => pointed (peel g)) gs) by (eapply Forall_impl; [|exact IH]; intros ? []; assumption).
    assert (E : pointed (VList gs)); [|exact (conj E E)].
    intros ctx v l p k H I. destruct v as [| | | | |vs| | |]; try (cbn [evaluate] in H; here; apply wr_type; discriminate). rewrite evaluate_list in H. destruct (Nat.eqb_spec (length vs) (length gs)) as [L|N]; cbn [negb] in H.
    + destruct (elements_pointed _ _ _ C _ _ _ _ _ H I) as (j & g & w & q & v' & g' & G & V & -> & B1 & B2 & W). exists (ListElement j :: q), v', g'. split; [reflexivity|]. split; [eapply be_list; eauto|]. split; [eapply be_list; eauto|exact W].
    + here. apply wr_list. exact N.
  - assert (C : Forall (fun p => pointed (peel (snd p))) gs) by (eapply Forall_impl; [|exact IH]; intros ? []; assumption).
    assert (E : pointed (VDict gs)); [|exact (conj E E)].
    intros ctx v l p k H I. destruct v as [| | | | | |vs| |]; try (cbn [evaluate] in H; here; apply wr_type; discriminate). rewrite evaluate_dict in H. destruct (list_string_eqb _ _) eqn:K; cbn [negb] in H.
    + destruct (keyed_pointed _ _ _ C _ _ _ _ H I) as (j & g & w & q & v' & g' & G & V & -> & B1 & B2 & W). exists (DictElement j :: q), v', g'. split; [reflexivity|]. split; [eapply be_dict; eauto|]. split; [eapply be_dict; eauto|exact W].
    + here. apply wr_dict. intros X. symmetry in X. apply sorted_same, list_string_eqb_iff in X. congruence.
  - assert (E : pointed (VTensor t)); [|exact (conj E E)]. intros ctx v l p k H I. destruct v; cbn [evaluate] in H; try (here; apply wr_type; discriminate).
    destruct (list_nat_eqb _ _) eqn:A; cbn [negb] in H; [|here; apply wr_shape; intros X; apply list_nat_eqb_iff in X; congruence]. apply list_nat_eqb_iff in A.
    destruct (String.eqb_spec (t_dtype t0) (t_dtype t)) as [D|D]; cbn [negb] in H; [|here; apply wr_dtype; [exact A|exact D]].
    destruct (allclose rtol atol t0 t) eqn:C; cbn [negb] in H; [injection H as <-; destruct I|]. here.
    assert (X : exists i, In i (seq 0 (numel (t_shape t))) /\ isclose rtol atol (t_elem t0 i) (t_elem t i) = false).
    { unfold allclose in C. induction (seq 0 (numel (t_shape t))) as [|i r IHs]; [discriminate|]. cbn [forallb] in C. destruct (isclose rtol atol (t_elem t0 i) (t_elem t i)) eqn:Q; [destruct (IHs C) as (j & J1 & J2); exists j; split; [right; exact J1|exact J2]|exists i; split; [left; reflexivity|exact Q]]. }
    destruct X as (i & I1 & I2). apply (wr_element _ _ i A D); [rewrite <- numel_count; apply in_seq in I1; lia|]. intros X. apply isclose_iff in X. congruence.
  - assert (E : pointed VOther); [|exact (conj E E)]. intros ctx v l p k H I. cbn [evaluate] in H. here. apply wr_golden. reflexivity.
Qed.
(** C55: each reason given for a failure points to a place where the value is wrong in the way said. *)
Theorem C55_reasons v g ctx l p k : value_report v g ctx = Some l -> In (p, k) l -> exists q v' g', p = ctx ++ q /\ inside q v v' /\ inside q g g' /\ wrong k v' g'.
Proof.
  intros H I. destruct (proj2 (evaluate_pointed_both g) _ _ _ _ _ H I) as (q & v' & g' & -> & B1 & B2 & W). exists q, v', g'. split; [reflexivity|]. split; [exact (below_inside _ _ _ B1 _ (peel_unwraps v))|]. split; [exact (below_inside _ _ _ B2 _ (peel_unwraps g))|exact W].
Qed.

(** * Traces *)
Lemma input_reports_iff ctx : forall ins gins i, input_reports i ins gins ctx = Some [] <-> Forall2 agrees (firstn (length gins) ins) (firstn (length ins) gins).
Proof.
  induction ins as [|v ins IH]; intros [|g gins] i; cbn [input_reports length firstn]; try (split; [intros _; try destruct gins; constructor|reflexivity]). split.
  - destruct (value_report v g (ctx ++ [Input i])) as [a|] eqn:A; [|discriminate]. cbn [obind]. destruct (input_reports (S i) ins gins ctx) as [b|] eqn:B; [|discriminate]. cbn [obind]. intros [= X]. apply app_nil_both in X as [-> ->].
    constructor; [exact (proj1 (C55_value _ _ _) A)|exact (proj1 (IH gins (S i)) B)].
  - intros F. inversion F as [|? ? ? ? F1 F2]; subst. rewrite (proj2 (C55_value _ _ _) F1). cbn [obind]. rewrite (proj2 (IH gins (S i)) F2). reflexivity.
Qed.
Lemma item_report_iff it g ctx : item_report it g ctx = Some [] <-> item_agrees it g.
Proof.
  unfold item_report, item_agrees. destruct (input_reports 0 (inputs it) (inputs g) ctx) as [i|] eqn:I; cbn [obind].
  - destruct (value_report (output it) (output g) (ctx ++ [Output])) as [o|] eqn:O; cbn [obind].
    + split.
      * intros [= X]. apply app_nil_both in X as [S X]. apply app_nil_both in X as [N X]. apply app_nil_both in X as [-> ->]. destruct (String.eqb_spec (symbol it) (symbol g)) as [E|]; [|discriminate]. destruct (Nat.eqb_spec (length (inputs it)) (length (inputs g))) as [L|]; [|discriminate].
        split; [exact E|]. split; [|exact (proj1 (C55_value _ _ _) O)]. apply input_reports_iff in I. rewrite <- L, firstn_all, L, firstn_all in I. exact I.
      * intros (S & F & A). rewrite S, String.eqb_refl, (Forall2_len _ _ _ _ _ F), Nat.eqb_refl. assert (I' : input_reports 0 (inputs it) (inputs g) ctx = Some []) by (apply input_reports_iff; rewrite <- (Forall2_len _ _ _ _ _ F) at 1; rewrite (Forall2_len _ _ _ _ _ F), !firstn_all; rewrite <- (Forall2_len _ _ _ _ _ F), firstn_all; exact F).
        apply (C55_value _ _ (ctx ++ [Output])) in A. rewrite I' in I. rewrite O in A. injection I as <-. injection A as ->. reflexivity.
    + split; [discriminate|]. intros (S & F & A). apply (C55_value _ _ (ctx ++ [Output])) in A. congruence.
  - split; [discriminate|]. intros (S & F & A). assert (I' : input_reports 0 (inputs it) (inputs g) ctx = Some []); [|congruence]. apply input_reports_iff. pose proof (Forall2_len _ _ _ _ _ F) as L. rewrite <- L at 1. rewrite firstn_all. rewrite L, firstn_all. exact F.
Qed.
Lemma item_reports_iff : forall t g i, (exists l, item_reports i t g = Some l /\ existsb (fun r => negb (length r =? 0)) l = false) <-> Forall2 item_agrees (firstn (length g) t) (firstn (length t) g).
Proof.
  induction t as [|x t IH]; intros [|y g] i; cbn [item_reports length firstn]; try (split; [intros _; constructor|intros _; eexists; split; reflexivity]). split.
  - intros (l & H & E). destruct (item_report x y [Item i]) as [a|] eqn:A; [|discriminate]. cbn [obind] in H. destruct (item_reports (S i) t g) as [b|] eqn:B; [|discriminate]. injection H as <-. cbn [existsb] in E. apply orb_false_iff in E as [E1 E2].
    destruct a; [|discriminate]. constructor; [exact (proj1 (item_report_iff _ _ _) A)|]. apply (IH g (S i)). exists b. split; [exact B|exact E2].
  - intros F. inversion F as [|? ? ? ? F1 F2]; subst. rewrite (proj2 (item_report_iff _ _ _) F1). cbn [obind]. destruct (proj2 (IH g (S i)) F2) as (b & -> & E). exists ([] :: b). split; [reflexivity|exact E].
Qed.
(** C55: a test is reported as passed exactly when it ran without errors and its calls agree with those of the golden trace, as far as
    both traces go. *)
Theorem C55_passed_prefix r : failed r = Some false <-> compilation_error r = false /\ runtime_error r = false /\
  exists t g, r_trace r = Some t /\ r_golden r = Some g /\ Forall2 item_agrees (firstn (length g) t) (firstn (length t) g).
Proof.
  unfold failed. destruct (compilation_error r), (runtime_error r); cbn [orb]; try (split; [discriminate|intros (X & Y & _); discriminate]).
  split.
  - destruct (r_trace r) as [t|]; [|discriminate]. destruct (r_golden r) as [g|]; [|discriminate]. cbn [obind]. destruct (item_reports 0 t g) as [l|] eqn:I; [|discriminate]. cbn [obind]. intros [= E]. split; [reflexivity|]. split; [reflexivity|].
    exists t, g. split; [reflexivity|]. split; [reflexivity|]. apply (item_reports_iff t g 0). eauto.
  - intros (_ & _ & t & g & -> & -> & F). cbn [obind]. apply (item_reports_iff t g 0) in F as (l & -> & E). cbn [obind]. rewrite E. reflexivity.
Qed.
(** C55 for traces of equal length. Missing: a trace with too few or too many calls (see C55_truncated_trace_refuted). *)
Theorem C55_passed_partial r : (forall t g, r_trace r = Some t -> r_golden r = Some g -> length t = length g) -> (failed r = Some false <-> test_passes r).
Proof.
  intros L. rewrite C55_passed_prefix. unfold test_passes. split; intros (A & B & t & g & T & G & F); split; try exact A; (split; [exact B|]); exists t, g; split; try exact T; (split; [exact G|]); specialize (L t g T G).
  - rewrite L, firstn_all in F. rewrite <- L, firstn_all in F. exact F.
  - rewrite <- L, firstn_all. rewrite L, firstn_all. exact F.
Qed.
Definition call (s : string) (v : value) : trace_item := {| symbol := s; inputs := []; output := v |}.
Definition ran (t g : trace) : test_result := {| r_name := "T"; compilation_error := false; runtime_error := false; r_trace := Some t; r_golden := Some g |}.
(** The code: calls that were never made are not noticed. *)
Theorem C55_truncated_trace_refuted g : failed (ran [] g) = Some false /\ (g <> [] -> ~ test_passes (ran [] g)).
Proof. split; [reflexivity|]. intros N (_ & _ & t & g' & T & G & F). injection T as <-. injection G as <-. inversion F; subst; congruence. Qed.
(** The code: any float is close to a negative golden one, NaN is close to everything, and everything is close to an infinite one. *)
Theorem C55_floats_refuted v y ctx : (y < 0)%Q -> value_report (VFloat v) (VFloat (Fin y)) ctx = Some [] /\
  value_report (VFloat NaN) (VFloat (Fin 1)) ctx = Some [] /\ value_report (VFloat v) (VFloat PInf) ctx = Some [] /\ value_report (VFloat v) (VFloat NaN) ctx = Some [].
Proof.
  intros N. assert (U : forall f, unwraps (VFloat f) (VFloat f)) by (intros; apply uw_same; discriminate). (split; [|split; [|split]]); apply C55_value; eapply ag; try apply U; apply sm_float; [apply fa_negative; exact N|apply fa_nan; reflexivity|apply fa_special; auto|apply fa_special; auto].
Qed.
(** The code: comparing with a golden zero raises, so no report is made at all. *)
Theorem C55_golden_zero_refuted v ctx : value_report (VFloat v) (VFloat (Fin 0)) ctx = None /\ failed (ran [call "forward" (VFloat (Fin 0))] [call "forward" (VFloat (Fin 0))]) = None.
Proof. split; reflexivity. Qed.
(** C55 for floats. Missing: goldens that are not positive, and NaN. *)
Theorem C55_floats_partial x y ctx : (0 < y)%Q -> (value_report (VFloat (Fin x)) (VFloat (Fin y)) ctx = Some [] <-> close x y).
Proof.
  intros P. rewrite C55_value. assert (U : forall f, unwraps (VFloat f) (VFloat f)) by (intros; apply uw_same; discriminate). split.
  - intros A. apply agrees_peel in A. cbn [peel] in A. inversion A as [? ? F|? ? ? N1 N2| | | | |]; subst; [|inversion N2]. inversion F; subst; try lra; [assumption|]. destruct H as [H|[H|H]]; discriminate.
  - intros C. eapply ag; try apply U. apply sm_float, fa_close; assumption.
Qed.
Definition sample_tensor (a b : Q) : value := VTensor {| t_shape := [2]; t_dtype := "float32"; t_elem := fun i => if i =? 0 then Fin a else Fin b |}.
Example C55_nonvacuous : failed (ran [call "forward" (VTuple [sample_tensor 1 2; VDict [("b", VInt 1); ("a", VStr "x")]])] [call "forward" (VTuple [sample_tensor 1 (2001 # 1000); VDict [("a", VStr "x"); ("b", VBool true)]])]) = Some false /\
  value_report (VTuple [sample_tensor 1 2; VDict [("b", VInt 1); ("a", VStr "x")]]) (VTuple [sample_tensor 1 (2003 # 1000); VDict [("a", VStr "y"); ("b", VFloat (Fin 1))]]) [] =
    Some [([TupleElement 0], NotClose); ([TupleElement 1; DictElement "a"], NotEqual); ([TupleElement 1; DictElement "b"], WrongType)].
Proof. split; vm_compute; reflexivity. Qed.
