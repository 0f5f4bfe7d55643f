(** Arguments of library functions and the functions that are imported: proofs. *)
From Coq Require Import ZArith Bool String Lia List.
From Verif Require Import Prelude DtypeModel TypesModel TypesSpec TypesProps ReifyModel ReifySpec.
Import ListNotations.
Open Scope list_scope.
Open Scope Z_scope.

(** * Arguments *)
Definition sub_sound' s t : sub s t -> forall v, has describes s v -> has describes t v.
Proof. intros S. apply (sub_sound (tsize s + tsize t)); [lia|exact S]. Qed.
Lemma typed_keep_iff t d : typed Keep t d <-> t = d.
Proof. split; [intros H; inversion H; reflexivity|intros ->; constructor]. Qed.
Lemma typed_derefine_iff t d : typed (Derefine Keep t d) t d <-> sub t d.
Proof.
  split; [|constructor; assumption].
  intros H; inversion H; subst; [assumption|]. apply sub_some, sub_refl.
Qed.
Lemma typed_some_iff c t u d : typed (Derefine c u (Optional d)) t (Optional d) <->
  (typed c t u /\ u = d) \/ (c = Keep /\ t = u /\ sub t (Optional d)).
Proof.
  split.
  - intros H; inversion H; subst; auto.
  - intros [[H ->]|[-> [-> S]]]; constructor; assumption.
Qed.
Lemma adjust_eq base d t : adjust base d t =
    match base t d with
    | Some c => Some (c, d)
    | None =>
        if ty_eqb t d then Some (Keep, t)
        else if match d with Atom AnyA => true | _ => false end then Some (Derefine Keep t d, d)
        else if match d, t with Atom NumberA, (Atom IntA | Atom FloatA) => true | _, _ => false end then Some (Derefine Keep t d, d)
        else if match d with Union ts => forallb int_float_or_none ts | _ => false end then Some (Derefine Keep t d, d)
        else if match t with Atom NoneA => true | _ => false end then Some (Derefine Keep t d, d)
        else if match t, d with Atom NumberA, Atom FloatA => true | _, _ => false end then Some (FloatScalar, d)
        else
          match t, d with
          | Optional contained, Optional _ => do (c, _) <- adjust base d contained; Some (IfNone d contained c, d)
          | _, Optional contained => do (c, u) <- adjust base contained t; Some (Derefine c u d, d)
          | List_ provided, List_ contained => do (c, _) <- adjust base contained provided; Some (Loop d provided c, d)
          | _, List_ _ => None
          | Atom IntA, Atom FloatA => Some (FloatScalar, d)
          | _, _ => Some (Keep, t)
          end
    end.
Proof. destruct d; destruct t; reflexivity. Qed.
Lemma int_float_or_none_spec ts : forallb int_float_or_none ts = true <-> (forall u, In u ts -> u = Atom IntA \/ u = Atom FloatA \/ u = Atom NoneA).
Proof.
  rewrite forallb_forall. split; intros H u I; specialize (H u I).
  - destruct u as [[]| | | | | | |]; cbn in H; auto; discriminate.
  - destruct H as [ -> |[ -> | -> ]]; reflexivity.
Qed.
Lemma int_float_or_none_false ts : forallb int_float_or_none ts = false <-> plain (Union ts).
Proof.
  cbn. split.
  - intros H. destruct (existsb (fun u => negb (int_float_or_none u)) ts) eqn:E.
    + apply existsb_exists in E. destruct E as [u [I N]]. exists u. split; [exact I|].
      repeat split; intros ->; discriminate.
    + exfalso. apply not_true_iff_false in H. apply H. apply forallb_forall. intros u I.
      destruct (int_float_or_none u) eqn:F; [reflexivity|].
      assert (X : existsb (fun u => negb (int_float_or_none u)) ts = true) by (apply existsb_exists; exists u; rewrite F; auto).
      congruence.
  - intros [u [I [N1 [N2 N3]]]]. apply not_true_iff_false. intros H. rewrite int_float_or_none_spec in H.
    destruct (H u I) as [ -> |[ -> | -> ]]; congruence.
Qed.
Lemma adjust_type base d t c u : adjust base d t = Some (c, u) -> typed c t d -> u = d.
Proof.
  rewrite adjust_eq. intros A T.
  repeat match type of A with
  | context [match base ?a ?b with Some _ => _ | None => _ end] => destruct (base a b) as [?|]; [inversion A; reflexivity|]
  | context [if ty_eqb ?a ?b then _ else _] => destruct (ty_eqb a b) eqn:?; [inversion A; subst; apply typed_keep_iff in T; assumption|]
  end.
  repeat (match type of A with (if ?b then _ else _) = _ => destruct b; [inversion A; reflexivity|] end).
  unfold obind in A.
  destruct d as [[]| | | | | | |]; destruct t as [[]| | | | | | |];
    repeat (match type of A with match ?e with Some _ => _ | None => _ end = _ => destruct e as [[? ?]|] end);
    inversion A; subst; try reflexivity; apply typed_keep_iff in T; congruence.
Qed.
Section Fits.
Context (base : ty -> ty -> option code) (tensor_as : ty -> Prop).
Context (base_tensor : forall t d c, base t d = Some c -> exists x, t = Tens x /\ (typed c t d -> tensor_as d)).
Context (base_fits : forall t d c, base t d = Some c -> fits tensor_as t d -> typed c t d).
Context (base_as : forall x d, tensor_as d -> exists c, base (Tens x) d = Some c).
Context (base_not_smaller : forall t d c, base t d = Some c -> ~ sub t (Optional d)).
Definition well (t d : ty) : Prop := exists c, adjust base d t = Some (c, d) /\ typed c t d.
Lemma well_fits n : forall t d, (tsize t + tsize d <= n)%nat -> (well t d <-> fits tensor_as t d).
Proof.
  induction n as [|n IH]; intros t d L.
  { pose proof (tsize_pos t). lia. }
  unfold well. rewrite adjust_eq. destruct (base t d) as [c|] eqn:B.
  { split.
    - intros [c' [E T]]. inversion E; subst c'. destruct (base_tensor _ _ _ B) as [x [-> X]]. apply fits_tensor. exact (X T).
    - intros F. exists c. split; [reflexivity|]. exact (base_fits _ _ _ B F). }
  destruct (ty_eqb t d) eqn:Q.
  { apply ty_eqb_eq in Q. subst d. split; [intros _; apply fits_same|]. intros _. exists Keep. split; [reflexivity|constructor]. }
  assert (N : t <> d) by (intros X; apply ty_eqb_eq in X; congruence).
  assert (NT : forall x, t = Tens x -> ~ tensor_as d).
  { intros x -> X. destruct (base_as x _ X) as [c E]. congruence. }
  assert (DR : forall (P : Prop), (sub t d <-> P) -> ((exists c, Some (Derefine Keep t d, d) = Some (c, d) /\ typed c t d) <-> P)).
  { intros P HP. rewrite <- HP. rewrite <- typed_derefine_iff. split.
    - intros [c [E T]]. inversion E; subst. exact T.
    - intros T. eexists. split; [reflexivity|exact T]. }
  destruct (match d with Atom AnyA => true | _ => false end) eqn:D1.
  { apply DR. destruct d as [[]| | | | | | |]; try discriminate. split; [intros _; apply fits_any|intros _; apply sub_any]. }
  destruct (match d, t with Atom NumberA, (Atom IntA | Atom FloatA) => true | _, _ => false end) eqn:D2.
  { apply DR. destruct d as [[]| | | | | | |]; try discriminate. destruct t as [[]| | | | | | |]; try discriminate;
      (split; [intros _; apply fits_number; auto|intros _; constructor]). }
  destruct (match d with Union ts => forallb int_float_or_none ts | _ => false end) eqn:D3.
  { apply DR. destruct d as [ | | | | |ts| | ]; try discriminate. pose proof (proj1 (int_float_or_none_spec ts) D3) as D4. split.
    - intros S. apply fits_scalar; assumption.
    - intros F. inversion F; subst; try assumption; try congruence. exfalso. eapply NT; eauto. }
  destruct (match t with Atom NoneA => true | _ => false end) eqn:D4.
  { apply DR. destruct t as [[]| | | | | | |]; try discriminate. split.
    - apply fits_none.
    - intros F. inversion F; subst; try assumption; try congruence; try (apply sub_any); try (apply sub_none);
        match goal with H : _ \/ _ |- _ => destruct H; discriminate end. }
  destruct (match t, d with Atom NumberA, Atom FloatA => true | _, _ => false end) eqn:D5.
  { destruct t as [[]| | | | | | |]; try discriminate. destruct d as [[]| | | | | | |]; try discriminate. split.
    - intros _. apply fits_float. auto.
    - intros _. eexists. split; [reflexivity|]. constructor. auto. }
  (** An operand that is passed as it is does not fit. *)
  assert (AS : (forall u, d <> Optional u) -> (forall a b, t = List_ a -> d <> List_ b) -> (t <> Atom IntA \/ d <> Atom FloatA) ->
    ((exists c, Some (Keep, t) = Some (c, d) /\ typed c t d) <-> fits tensor_as t d)).
  { intros A1 A2 A3. split.
    - intros [c [E _]]. inversion E. congruence.
    - intros F. exfalso. inversion F; subst; try congruence; try discriminate.
      + eapply NT; eauto.
      + destruct H as [ -> | -> ]; discriminate.
      + apply int_float_or_none_spec in H. congruence.
      + destruct H as [ -> | -> ]; [discriminate|]. destruct A3; congruence.
      + eapply A2; reflexivity. }
  (** An operand for an optional parameter. *)
  assert (SM : forall v, d = Optional v -> (forall u, t <> Optional u) ->
    ((exists c, (do (c, u) <- adjust base v t; Some (Derefine c u d, d)) = Some (c, d) /\ typed c t d) <-> fits tensor_as t d)).
  { intros v -> NO. assert (IV : well t v <-> fits tensor_as t v) by (apply IH; cbn [tsize] in L; lia). split.
    - intros [c [E T]]. unfold obind in E. destruct (adjust base v t) as [[c0 u]|] eqn:A; [|discriminate]. inversion E; subst c.
      apply typed_some_iff in T. destruct T as [[T ->]|[-> [-> S]]].
      + apply fits_some; [exact NO|]. apply IV. exists c0. auto.
      + destruct (ty_eqb u v) eqn:UV.
        { apply ty_eqb_eq in UV. subst v. apply fits_some; [exact NO|apply fits_same]. }
        apply fits_smaller; [exact NO| |exact S].
        rewrite adjust_eq in A. destruct (base u v) as [c0|] eqn:BV.
        { exfalso. exact (base_not_smaller _ _ _ BV S). }
        rewrite UV in A.
        destruct v as [a|m|v'|v'|ts|ts|k w|x]; cbn [plain]; auto.
        * intros ->. discriminate.
        * exfalso. cbn match in A. rewrite D4 in A.
          destruct u as [ua|um|u'|u'|us|us|uk uw|ux]; try (destruct ua);
            cbn in A; try discriminate; try (exfalso; eapply NO; reflexivity);
            unfold obind in A; repeat (match type of A with context [match ?e with Some _ => _ | None => _ end] => destruct e as [[? ?]|] end; try discriminate).
        * exfalso. cbn match in A. rewrite D4 in A.
          destruct u as [ua|um|u'|u'|us|us|uk uw|ux]; try (destruct ua);
            cbn in A; try discriminate; try (exfalso; eapply NO; reflexivity);
            unfold obind in A; repeat (match type of A with context [match ?e with Some _ => _ | None => _ end] => destruct e as [[? ?]|] end; try discriminate).
        * cbn match in A. apply int_float_or_none_false. destruct (forallb int_float_or_none ts) eqn:FB; [|reflexivity]. discriminate.
    - intros F.
      assert (C : fits tensor_as t v \/ (plain v /\ sub t (Optional v))).
      { inversion F; subst; auto; try congruence.
        exfalso. destruct (base_as t0 _ H) as [c E]. congruence. }
      assert (WV : fits tensor_as t v -> exists c, (do (c, u) <- adjust base v t; Some (Derefine c u (Optional v), Optional v)) = Some (c, Optional v) /\ typed c t (Optional v)).
      { intros F'. apply IV in F'. destruct F' as [c [A T]]. rewrite A. cbn. eexists. split; [reflexivity|]. constructor. exact T. }
      destruct C as [C|[P S]]; [exact (WV C)|].
      destruct (ty_eqb t v) eqn:UV.
      { apply ty_eqb_eq in UV. subst v. apply WV. apply fits_same. }
      destruct (base t v) as [c|] eqn:BV; [exfalso; exact (base_not_smaller _ _ _ BV S)|].
      assert (CASES : fits tensor_as t v \/ adjust base v t = Some (Keep, t)).
      { rewrite adjust_eq, BV, UV, D4.
        destruct v as [a|m|v'|v'|ts|ts|k w|x]; cbn [plain] in P; try contradiction.
        - destruct a; try congruence; destruct t as [[]| | | | | | |]; auto; try (left; apply fits_number; auto; fail); try (left; apply fits_float; auto; fail);
            try discriminate; exfalso; eapply NO; reflexivity.
        - destruct t as [[]| | | | | | |]; auto; try discriminate.
        - destruct t as [[]| | | | | | |]; auto; try discriminate.
        - pose proof (proj2 (int_float_or_none_false ts) P) as FB. rewrite FB. destruct t as [[]| | | | | | |]; auto; try discriminate.
        - destruct t as [[]| | | | | | |]; auto; try discriminate.
        - destruct t as [[]| | | | | | |]; auto; try discriminate. }
      destruct CASES as [C|A]; [exact (WV C)|]. rewrite A. cbn. eexists. split; [reflexivity|]. constructor. exact S. }
  destruct d as [a|m|v|v|ts|ts|k w|x].
  - destruct a; try discriminate; destruct t as [[]| | | | | | |]; try discriminate; try congruence;
      try (apply AS; [discriminate|discriminate|auto; left; discriminate]; fail);
      try (apply AS; [discriminate|discriminate|right; discriminate]; fail);
      try (apply AS; [discriminate|intros ? ? ? ?; discriminate|left; discriminate]; fail).
    split; [intros _; apply fits_float; auto|]. intros _. eexists. split; [reflexivity|]. constructor. auto.
  - destruct t as [[]| | | | | | |]; try discriminate; apply AS; try discriminate; try (right; discriminate); intros; discriminate.
  - destruct t as [ta|tm|t'|t'|ts|ts|tk tw|tx]; try (destruct ta); try (apply SM; [reflexivity|discriminate]).
    assert (IV : well t' (Optional v) <-> fits tensor_as t' (Optional v)) by (apply IH; cbn [tsize] in *; lia). split.
    + intros [c [E T]]. unfold obind in E. destruct (adjust base (Optional v) t') as [[c0 u]|] eqn:A; [|discriminate]. inversion E; subst c.
      inversion T; subst. apply fits_optional. apply IV. exists c0. split; [|assumption].
      rewrite (adjust_type _ _ _ _ _ A ltac:(eassumption)) in A. exact A.
    + intros F. assert (F' : fits tensor_as t' (Optional v)).
      { inversion F; subst; try congruence; try assumption; try discriminate;
          try (exfalso; match goal with H : forall u, Optional _ <> Optional u |- _ => eapply H; reflexivity end). }
      apply IV in F'. destruct F' as [c [A T]]. rewrite A. cbn. eexists. split; [reflexivity|]. constructor. exact T.
  - destruct t as [ta|tm|t'|t'|ts|ts|tk tw|tx]; try (destruct ta); try discriminate;
      try (split; [intros [c [E _]]; discriminate|intros F; exfalso; inversion F; subst; try congruence; eapply NT; eauto]; fail);
      try (split; [intros [c [E _]]; discriminate|intros F; exfalso; inversion F; subst; try congruence;
           match goal with H : _ \/ _ |- _ => destruct H; discriminate end]; fail).
    assert (IV : well t' v <-> fits tensor_as t' v) by (apply IH; cbn [tsize] in *; lia). split.
    + intros [c [E T]]. unfold obind in E. destruct (adjust base v t') as [[c0 u]|] eqn:A; [|discriminate]. inversion E; subst c.
      inversion T; subst. apply fits_list. apply IV. exists c0. split; [|assumption].
      rewrite (adjust_type _ _ _ _ _ A ltac:(eassumption)) in A. exact A.
    + intros F. assert (F' : fits tensor_as t' v) by (inversion F; subst; try congruence; assumption).
      apply IV in F'. destruct F' as [c [A T]]. rewrite A. cbn. eexists. split; [reflexivity|]. constructor. exact T.
  - destruct t as [[]| | | | | | |]; try discriminate; apply AS; try discriminate; try (right; discriminate); intros; discriminate.
  - destruct t as [[]| | | | | | |]; try discriminate; apply AS; try discriminate; try (right; discriminate); intros; discriminate.
  - destruct t as [[]| | | | | | |]; try discriminate; apply AS; try discriminate; try (right; discriminate); intros; discriminate.
  - destruct t as [[]| | | | | | |]; try discriminate; apply AS; try discriminate; try (right; discriminate); intros; discriminate.
Qed.
End Fits.
Lemma not_smaller_list x u : ~ sub (Tens x) (Optional (List_ u)).
Proof. intros H. inversion H; subst. inversion H2. Qed.
Lemma not_smaller_tuple x us : ~ sub (Tens x) (Optional (Tuple us)).
Proof. intros H. inversion H; subst. inversion H2. Qed.
(** The operands that fit a parameter of a shape function are exactly those for which the argument is well typed. *)
Theorem C67_shape_operands_fit t d :
  (exists c, adjust shape_base d t = Some (c, d) /\ typed c t d) <-> fits as_sizes t d.
Proof.
  apply (well_fits shape_base as_sizes) with (n := (tsize t + tsize d)%nat); try lia.
  - intros t0 d0 c B. destruct t0; try discriminate. cbn in B. destruct (is_int_list d0) eqn:I; [|discriminate]. inversion B; subst c.
    exists t0. split; [reflexivity|]. intros T. inversion T. reflexivity.
  - intros t0 d0 c B _. destruct t0; try discriminate. cbn in B. destruct (is_int_list d0) eqn:I; [|discriminate]. inversion B; subst c.
    destruct d0 as [| | |[[]| | | | | | |]| | | |]; try discriminate. constructor.
  - intros x d0 ->. exists Size. reflexivity.
  - intros t0 d0 c B. destruct t0; try discriminate. cbn in B. destruct (is_int_list d0) eqn:I; [|discriminate].
    destruct d0; try discriminate. apply not_smaller_list.
Qed.
Theorem C67_dtype_operands_fit t d :
  (exists c, adjust dtype_base d t = Some (c, d) /\ typed c t d) <-> fits as_rank_and_dtype t d.
Proof.
  apply (well_fits dtype_base as_rank_and_dtype) with (n := (tsize t + tsize d)%nat); try lia.
  - intros t0 d0 c B. destruct t0; try discriminate. destruct d0; try discriminate. inversion B; subst c.
    exists t0. split; [reflexivity|]. intros T. inversion T. reflexivity.
  - intros t0 d0 c B F. destruct t0; try discriminate. destruct d0; try discriminate. inversion B; subst c.
    inversion F as [x' d' W| | | | | | | | | |]; subst. red in W. inversion W; subst. constructor.
  - intros x d0 ->. exists RankAndDtype. reflexivity.
  - intros t0 d0 c B. destruct t0; try discriminate. destruct d0; try discriminate. apply not_smaller_tuple.
Qed.
Section Values.
Context (float_of : Z -> Z) (code_of : dtype -> Z).
Notation exec := (exec float_of code_of).
Notation passed := (passed float_of code_of).
Lemma typed_value c t d : typed c t d -> forall v, has describes t v -> exists w, exec c v = Some w /\ passed d v w.
Proof.
  intros T. induction T; intros v V; cbn [ReifySpec.exec].
  - exists v. split; [reflexivity|]. constructor. exact V.
  - destruct V as [x [-> _]]. eexists. split; [reflexivity|]. constructor.
  - destruct V as [x [-> _]]. eexists. split; [reflexivity|]. constructor.
  - destruct H as [ -> | -> ]; destruct v; cbn in V; try contradiction; eexists; (split; [reflexivity|]); constructor; exact I.
  - exists v. split; [reflexivity|]. constructor. exact (sub_sound' _ _ H v V).
  - destruct (IHT v V) as [w [E P]]. exists w. split; [exact E|]. constructor. exact P.
  - destruct V as [ -> |V].
    + exists VNone. split; [reflexivity|]. constructor. left. reflexivity.
    + destruct (IHT v V) as [w [E P]]. destruct v; try (exists w; split; [exact E|exact P]).
      exists VNone. split; [reflexivity|]. constructor. left. reflexivity.
  - destruct V as [l [-> F]].
    assert (X : exists ws, mapM (exec c) l = Some ws /\ Forall2 (passed d) l ws).
    { induction F as [|x l V F IHF]; [exists []; split; [reflexivity|constructor]|].
      destruct (IHT x V) as [w [E P]]. destruct IHF as [ws [E' P']]. exists (w :: ws). cbn. rewrite E. cbn. rewrite E'. split; [reflexivity|constructor; assumption]. }
    destruct X as [ws [E P]]. rewrite E. eexists. split; [reflexivity|]. constructor. exact P.
Qed.
Lemma ints_have l : Forall (has describes (Atom IntA)) (map VInt l).
Proof. apply Forall_forall. intros x I. apply in_map_iff in I. destruct I as [z [<- _]]. exact I. Qed.
Lemma passed_induction (P : ty -> val -> val -> Prop) :
  (forall d v, has describes d v -> P d v v) ->
  (forall x, P (List_ (Atom IntA)) (VTensor x) (VList (map VInt (shape x)))) ->
  (forall x, P (Tuple [Atom IntA; Atom IntA]) (VTensor x) (VTuple [VInt (zlen (shape x)); VInt (code_of (dtype_of x))])) ->
  (forall z, P (Atom FloatA) (VInt z) (VFloat (float_of z))) ->
  (forall d v w, passed d v w -> P d v w -> P (Optional d) v w) ->
  (forall d vs ws, Forall2 (passed d) vs ws -> Forall2 (P d) vs ws -> P (List_ d) (VList vs) (VList ws)) ->
  forall d v w, passed d v w -> P d v w.
Proof.
  intros H1 H2 H3 H4 H5 H6. fix IH 4. intros d v w X. destruct X.
  - apply H1; assumption.
  - apply H2.
  - apply H3.
  - apply H4.
  - apply H5; [assumption|apply IH; assumption].
  - apply H6; [assumption|]. revert vs ws H. fix IL 3. intros vs ws F. destruct F; constructor; [apply IH; assumption|apply IL; assumption].
Qed.
Lemma passed_has d v w : passed d v w -> has describes d w.
Proof.
  revert d v w. apply passed_induction.
  - auto.
  - intros x. exists (map VInt (shape x)). split; [reflexivity|apply ints_have].
  - intros x. apply has_tuple. eexists. split; [reflexivity|]. repeat constructor.
  - intros z. exact I.
  - intros d v w _ H. right. exact H.
  - intros d vs ws _ F. exists ws. split; [reflexivity|]. induction F; constructor; assumption.
Qed.
Lemma passed_none d v w : passed d v w -> v = VNone -> w = v.
Proof.
  revert d v w. apply (passed_induction (fun d v w => v = VNone -> w = v)); try discriminate; auto.
Qed.
Lemma passed_same_when_has d v w : passed d v w -> has describes d v -> w = v.
Proof.
  revert d v w. apply (passed_induction (fun d v w => has describes d v -> w = v)).
  - auto.
  - intros x [l [E _]]. discriminate.
  - intros x H. apply has_tuple in H. destruct H as [l [E _]]. discriminate.
  - intros z H. destruct H.
  - intros d v w X H [ -> |V]; [|auto]. exact (passed_none _ _ _ X eq_refl).
  - intros d vs ws _ F [l [E V]]. inversion E; subst l. f_equal. clear E. induction F; [reflexivity|]. inversion V; subst. f_equal; auto.
Qed.
(** There is one argument for a parameter and an operand. *)
Theorem C67_argument_unique d v w w' : passed d v w -> passed d v w' -> w = w'.
Proof.
  intros X. revert w'. revert d v w X. apply (passed_induction (fun d v w => forall w', passed d v w' -> w = w')).
  - intros d v V w' X. symmetry. exact (passed_same_when_has _ _ _ X V).
  - intros x w' X. inversion X; subst; [|reflexivity]. destruct H as [l [E _]]. discriminate.
  - intros x w' X. inversion X; subst; [|reflexivity]. apply has_tuple in H. destruct H as [l [E _]]. discriminate.
  - intros z w' X. inversion X; subst; [|reflexivity]. destruct H.
  - intros d v w P IH w' X. inversion X; subst.
    + exact (passed_same_when_has (Optional d) w' w (passed_some _ _ _ _ _ P) H).
    + apply IH. assumption.
  - intros d vs ws P IH w' X. inversion X; subst.
    + exact (passed_same_when_has (List_ d) (VList vs) (VList ws) (passed_list _ _ _ _ _ P) H).
    + f_equal. match goal with F : Forall2 (ReifySpec.passed _ _ _) vs ?z |- ws = ?z => clear P X; revert z F end.
      induction IH; intros z F; inversion F; subst; [reflexivity|]. f_equal; auto.
Qed.
(** An operand that fits is passed to the function, as a value of the type of the parameter. *)
Theorem C67_shape_argument t d v : fits as_sizes t d -> has describes t v ->
  exists c w, adjust shape_base d t = Some (c, d) /\ exec c v = Some w /\ passed d v w /\ has describes d w.
Proof.
  intros F V. apply C67_shape_operands_fit in F. destruct F as [c [A T]]. destruct (typed_value c t d T v V) as [w [E P]].
  exists c, w. repeat split; auto. eapply passed_has; eauto.
Qed.
Theorem C67_dtype_argument t d v : fits as_rank_and_dtype t d -> has describes t v ->
  exists c w, adjust dtype_base d t = Some (c, d) /\ exec c v = Some w /\ passed d v w /\ has describes d w.
Proof.
  intros F V. apply C67_dtype_operands_fit in F. destruct F as [c [A T]]. destruct (typed_value c t d T v V) as [w [E P]].
  exists c, w. repeat split; auto. eapply passed_has; eauto.
Qed.
(** All operands of an operation. *)
Definition gets_arguments (cs : list (code * ty)) (ds : list ty) (vs ws : list val) : Prop :=
  map snd cs = ds /\ mapM (fun p => exec (fst (fst p)) (snd p)) (combine cs vs) = Some ws /\ Forall2 (fun d p => passed d (fst p) (snd p)) ds (combine vs ws) /\ length ws = length ds.
Theorem C67_shape_arguments ts ds vs : Forall2 (fits as_sizes) ts ds -> Forall2 (has describes) ts vs ->
  exists cs ws, shape_args ts ds = Some cs /\ gets_arguments cs ds vs ws.
Proof.
  intros F. revert vs. induction F as [|t d ts ds F Fs IH]; intros vs V; inversion V; subst.
  - exists [], []. unfold gets_arguments. repeat split; auto. constructor.
  - destruct (C67_shape_argument t d y F H1) as [c [w [A [E [P _]]]]].
    destruct (IH l' H3) as [cs [ws [A' [G1 [G2 [G3 G4]]]]]].
    exists ((c, d) :: cs), (w :: ws). unfold shape_args in *. cbn [combine mapM fst snd]. rewrite A. cbn [obind]. rewrite A'. split; [reflexivity|].
    unfold gets_arguments. cbn [map combine mapM fst snd length]. rewrite E. cbn [obind]. rewrite G2, G1, G4. repeat split; auto.
Qed.
Theorem C67_dtype_arguments ts ds vs : Forall2 (fits as_rank_and_dtype) ts ds -> Forall2 (has describes) ts vs ->
  exists cs ws, dtype_args ts ds = Some cs /\ gets_arguments cs ds vs ws.
Proof.
  intros F. revert vs. induction F as [|t d ts ds F Fs IH]; intros vs V; inversion V; subst.
  - exists [], []. unfold gets_arguments. repeat split; auto. constructor.
  - destruct (C67_dtype_argument t d y F H1) as [c [w [A [E [P _]]]]].
    destruct (IH l' H3) as [cs [ws [A' [G1 [G2 [G3 G4]]]]]].
    exists ((c, d) :: cs), (w :: ws). cbn [dtype_args]. rewrite A. cbn [obind]. rewrite A'. split; [reflexivity|].
    unfold gets_arguments. cbn [map combine mapM fst snd length]. rewrite E. cbn [obind]. rewrite G2, G1, G4. repeat split; auto.
Qed.
End Values.
Example C67_nonvacuous :
  let image := {| value_semantics := true; sizes := None; elt := None; sparsity := None |} in
  let x := {| by_value := true; shape := [2; 3]; dtype_of := Builtin (FloatT F32); storage := None |} in
  fits as_sizes (List_ (Optional (Tens image))) (List_ (Optional (List_ (Atom IntA)))) /\
  has describes (List_ (Optional (Tens image))) (VList [VNone; VTensor x]) /\
  (exists c, adjust shape_base (List_ (Optional (List_ (Atom IntA)))) (List_ (Optional (Tens image))) = Some (c, List_ (Optional (List_ (Atom IntA)))) /\
     exec (fun z => z) (fun _ => 6) c (VList [VNone; VTensor x]) = Some (VList [VNone; VList [VInt 2; VInt 3]])) /\
  (exists c, adjust dtype_base (Optional (Tuple [Atom IntA; Atom IntA])) (Optional (Tens image)) = Some (c, Optional (Tuple [Atom IntA; Atom IntA])) /\
     exec (fun z => z) (fun _ => 6) c (VTensor x) = Some (VTuple [VInt 2; VInt 6])) /\
  fits as_sizes (Union [Atom IntA; Atom NoneA]) (Optional (Atom IntA)).
Proof.
  split; [|split; [|split; [|split]]].
  - apply fits_list, fits_optional, fits_some; [discriminate|]. apply fits_tensor. reflexivity.
  - exists [VNone; VTensor {| by_value := true; shape := [2; 3]; dtype_of := Builtin (FloatT F32); storage := None |}]. split; [reflexivity|].
    constructor; [left; reflexivity|]. constructor; [|constructor]. right. eexists. split; [reflexivity|]. repeat split.
  - eexists. split; reflexivity.
  - eexists. split; reflexivity.
  - apply fits_smaller; [discriminate|discriminate|]. apply sub_union_left. intros c [<-|[<-|[]]]; [apply sub_some, sub_refl|apply sub_none].
Qed.
(** Other operands are passed as they are, or refined to a type they do not have. *)
Theorem C67_as_is_refuted : forall x,
  adjust shape_base (Atom IntA) (Atom NumberA) = Some (Keep, Atom NumberA) /\
  adjust shape_base (Atom IntA) (Optional (Atom IntA)) = Some (Keep, Optional (Atom IntA)) /\
  (let scalar := Union [Atom IntA; Atom FloatA; Atom NoneA] in
   adjust shape_base scalar (Tens x) = Some (Derefine Keep (Tens x) scalar, scalar) /\ ~ sub (Tens x) scalar /\
   forall v, has describes (Tens x) v -> ~ has describes scalar v).
Proof.
  intros x. split; [reflexivity|]. split; [reflexivity|]. split; [reflexivity|].
  assert (W : forall v, has describes (Tens x) v -> ~ has describes (Union [Atom IntA; Atom FloatA; Atom NoneA]) v).
  { intros v [y [-> _]] H. apply has_union in H. destruct H as [c [I H]]. cbn in I. destruct I as [<-|[<-|[<-|[]]]]; exact H. }
  split; [|exact W].
  intros S. inversion S as [| | | | | | |s0 c0 cs0 I0 S0| |]; subst. cbn in I0. destruct I0 as [<-|[<-|[<-|[]]]]; inversion S0.
Qed.
(** Shape functions may have fewer parameters than there are operands, dtype functions may not. *)
Theorem C67_more_operands_refuted ts ds extra :
  length ts = length ds -> shape_args (ts ++ extra) ds = shape_args ts ds /\ (extra <> [] -> dtype_args (ts ++ extra) ds = None).
Proof.
  intros L. split.
  - unfold shape_args. f_equal. revert ds L. induction ts as [|t ts IH]; intros [|d ds] L; try discriminate; cbn; [destruct extra; reflexivity|].
    f_equal. apply IH. cbn in L. lia.
  - intros N. revert ds L. induction ts as [|t ts IH]; intros [|d ds] L; try discriminate; cbn [app dtype_args].
    + destruct extra; [congruence|reflexivity].
    + rewrite IH; [|cbn in L; lia]. destruct (adjust dtype_base d t); reflexivity.
Qed.

(** * Functions *)
Open Scope nat_scope.
Lemma callees_in lib f l : callees lib f = Some l -> In (f, l) lib.
Proof.
  induction lib as [|[g m] lib IH]; [discriminate|]. cbn. destruct (String.eqb_spec g f) as [->|N]; intros E.
  - inversion E; subst. left. reflexivity.
  - right. auto.
Qed.
Lemma callees_find lib f l : NoDup (map fst lib) -> In (f, l) lib -> callees lib f = Some l.
Proof.
  induction lib as [|[g m] lib IH]; intros ND I; [destruct I|]. cbn in *. inversion ND; subst. destruct I as [I|I].
  - inversion I; subst. rewrite String.eqb_refl. reflexivity.
  - destruct (String.eqb_spec g f) as [->|N]; [|auto]. exfalso. apply H1. apply in_map_iff. exists (f, l). auto.
Qed.
Lemma mem_string f l : existsb (String.eqb f) l = true <-> In f l.
Proof.
  rewrite existsb_exists. split; [intros [x [I E]]; apply String.eqb_eq in E; subst; exact I|]. intros I. exists f. split; [exact I|apply String.eqb_refl].
Qed.
(** The calls that remain to be looked at. *)
Definition remaining (imported : list string) (lib : list (string * list string)) : nat :=
  list_sum (map (fun p => if existsb (String.eqb (fst p)) imported then 0 else S (length (snd p))) lib).
Lemma remaining_cons imported g m lib : remaining imported ((g, m) :: lib) = (if existsb (String.eqb g) imported then 0 else S (length m)) + remaining imported lib.
Proof. reflexivity. Qed.
Lemma remaining_more f imported lib : remaining (f :: imported) lib <= remaining imported lib.
Proof.
  induction lib as [|[g m] lib IH]; [apply le_n|]. rewrite !remaining_cons. cbn [existsb].
  destruct (String.eqb g f); cbn [orb]; destruct (existsb (String.eqb g) imported); lia.
Qed.
Lemma remaining_import f l imported lib : callees lib f = Some l -> ~ In f imported -> remaining (f :: imported) lib + S (length l) <= remaining imported lib.
Proof.
  intros C N. induction lib as [|[g m] lib IH]; [discriminate|]. cbn in C. pose proof (remaining_more f imported lib) as M.
  rewrite !remaining_cons. cbn [existsb].
  destruct (String.eqb_spec g f) as [->|D].
  - inversion C; subst m. cbn [orb]. destruct (existsb (String.eqb f) imported) eqn:E; [apply mem_string in E; contradiction|]. lia.
  - cbn [orb]. specialize (IH C). destruct (existsb (String.eqb g) imported); lia.
Qed.
Section Import.
Context (lib : list (string * list string)) (needed : list string) (ND : NoDup (map fst lib)).
Definition required (f : string) : Prop := exists r, In r needed /\ needs lib r f.
Definition defined (f : string) : Prop := In f (map fst lib).
Record state (worklist imported : list string) : Prop := {
  st_nodup : NoDup imported;
  st_work : forall f, In f worklist -> required f;
  st_imported : forall f, In f imported -> required f /\ defined f;
  st_roots : forall f, In f needed -> In f worklist \/ In f imported;
  st_closed : forall f l g, In f imported -> In (f, l) lib -> In g l -> In g worklist \/ In g imported }.
Lemma state_skip f rest imported : state (f :: rest) imported -> In f imported -> state rest imported.
Proof.
  intros [A B C D E] I. constructor; auto.
  - intros g G. apply B. right. exact G.
  - intros g G. destruct (D g G) as [[<-|X]|X]; auto.
  - intros g l h G1 G2 G3. destruct (E g l h G1 G2 G3) as [[<-|X]|X]; auto.
Qed.
Lemma state_import f l rest imported : state (f :: rest) imported -> ~ In f imported -> callees lib f = Some l -> state (rev l ++ rest) (f :: imported).
Proof.
  intros [A B C D E] N K. pose proof (callees_in _ _ _ K) as IL. constructor.
  - constructor; assumption.
  - intros g G. apply in_app_iff in G. destruct G as [G|G]; [|apply B; right; exact G].
    apply in_rev in G. destruct (B f (or_introl eq_refl)) as [r [R1 R2]]. exists r. split; [exact R1|]. eapply needs_callee; eauto.
  - intros g [<-|G]; [|apply C; exact G]. split; [apply B; left; reflexivity|]. apply in_map_iff. exists (f, l). auto.
  - intros g G. destruct (D g G) as [[<-|X]|X]; [right; left; reflexivity|left; apply in_app_iff; auto|right; right; exact X].
  - intros g l' h [<-|G1] G2 G3.
    + rewrite (callees_find _ _ _ ND G2) in K. inversion K; subst l'. left. apply in_app_iff. left. apply in_rev. rewrite rev_involutive. exact G3.
    + destruct (E g l' h G1 G2 G3) as [[<-|X]|X]; [right; left; reflexivity|left; apply in_app_iff; auto|right; right; exact X].
Qed.
Lemma import_result fuel : forall worklist imported l, state worklist imported -> import_functions lib fuel worklist imported = Some l ->
  NoDup l /\ (forall f, In f l <-> required f) /\ (forall f, required f -> defined f).
Proof.
  induction fuel as [|fuel IH]; intros worklist imported l S E; destruct worklist as [|f rest]; cbn in E; try discriminate.
  1,2: inversion E; subst l; destruct S as [A B C D F];
    assert (R : forall f, required f -> In f imported) by
      (intros f [r [R1 R2]]; induction R2; [destruct (D f R1) as [[]|X]; exact X|destruct (F _ _ _ (IHR2 R1) H H0) as [[]|X]; exact X]);
    split; [exact A|]; split; [intros f; split; [intros I; apply C; exact I|apply R]|intros f X; apply C, R, X].
  destruct (existsb (String.eqb f) imported) eqn:M.
  - apply mem_string in M. eapply IH; [|exact E]. eapply state_skip; eauto.
  - assert (N : ~ In f imported) by (intros X; apply mem_string in X; congruence).
    destruct (callees lib f) as [cs|] eqn:K; [|discriminate]. cbn in E. eapply IH; [|exact E]. eapply state_import; eauto.
Qed.
Lemma import_succeeds fuel : forall worklist imported, state worklist imported -> (forall f, required f -> defined f) ->
  length worklist + remaining imported lib <= fuel -> exists l, import_functions lib fuel worklist imported = Some l.
Proof.
  induction fuel as [|fuel IH]; intros worklist imported S D L; destruct worklist as [|f rest]; cbn [import_functions]; try (eexists; reflexivity).
  - cbn in L. lia.
  - cbn [length] in L. destruct (existsb (String.eqb f) imported) eqn:M.
    + apply mem_string in M. apply IH; [eapply state_skip; eauto|exact D|lia].
    + assert (N : ~ In f imported) by (intros X; apply mem_string in X; congruence).
      pose proof (D f (st_work _ _ S f (or_introl eq_refl))) as X. apply in_map_iff in X. destruct X as [[f' cs] [E I]]. cbn in E. subst f'.
      pose proof (callees_find _ _ _ ND I) as K. rewrite K. cbn [obind].
      apply IH; [eapply state_import; eauto|exact D|]. rewrite app_length, rev_length. pose proof (remaining_import _ _ _ _ K N). lia.
Qed.
Lemma initial_state : state (rev needed) [].
Proof.
  constructor; try (intros; contradiction).
  - constructor.
  - intros f I. apply in_rev in I. exists f. split; [exact I|constructor].
  - intros f I. left. apply in_rev. rewrite rev_involutive. exact I.
Qed.
(** Exactly the functions that the needed ones call, directly or not, are imported, each of them once, however the calls are arranged;
    a call of a function that the library does not have is noticed. *)
Theorem C66_imported_functions fuel : length needed + remaining [] lib <= fuel ->
  match importLibraryFunctions lib fuel needed with
  | Some l => NoDup l /\ (forall f, In f l <-> exists r, In r needed /\ needs lib r f) /\ (forall r f, In r needed -> needs lib r f -> In f (map fst lib))
  | None => exists r f, In r needed /\ needs lib r f /\ ~ In f (map fst lib)
  end.
Proof.
  intros L. unfold importLibraryFunctions. destruct (import_functions lib fuel (rev needed) []) as [l|] eqn:E.
  - destruct (import_result _ _ _ _ initial_state E) as [A [B C]]. split; [exact A|]. split; [exact B|]. intros r f R N. apply C. exists r. auto.
  - (** The first missing function. *)
    assert (X : forall fuel worklist imported, state worklist imported -> length worklist + remaining imported lib <= fuel ->
      import_functions lib fuel worklist imported = None -> exists f, required f /\ ~ defined f).
    { clear - ND. intros fuel. induction fuel as [|fuel IH]; intros worklist imported S L E; destruct worklist as [|f rest]; cbn in E; try discriminate.
      - cbn in L. lia.
      - cbn [length] in L. destruct (existsb (String.eqb f) imported) eqn:M.
        + apply mem_string in M. eapply IH; [eapply state_skip; eauto|lia|exact E].
        + assert (N : ~ In f imported) by (intros X; apply mem_string in X; congruence).
          destruct (callees lib f) as [cs|] eqn:K.
          * cbn in E. eapply IH; [eapply state_import; eauto| |exact E]. rewrite app_length, rev_length. pose proof (remaining_import _ _ _ _ K N). lia.
          * exists f. split; [apply (st_work _ _ S); left; reflexivity|]. intros D. apply in_map_iff in D. destruct D as [[f' cs] [Ef I]]. cbn in Ef. subst f'.
            rewrite (callees_find _ _ _ ND I) in K. discriminate. }
    destruct (X fuel _ _ initial_state ltac:(rewrite rev_length; exact L) E) as [f [[r [R N]] D]]. exists r, f. auto.
Qed.
End Import.
(** The function that is wanted last is the last one in the module, after all functions moved later. *)
Theorem C66_last_first lib fuel needed f l : importLibraryFunctions lib fuel (needed ++ [f]) = Some l -> exists front, l = front ++ [f].
Proof.
  unfold importLibraryFunctions. rewrite rev_app_distr. cbn [rev app]. destruct fuel as [|fuel]; [discriminate|]. cbn.
  destruct (callees lib f) as [cs|]; [|discriminate]. cbn.
  assert (X : forall fuel w imported l, import_functions lib fuel w imported = Some l -> exists front, l = front ++ imported).
  { clear. induction fuel as [|fuel IH]; intros w imported l E; destruct w as [|g w]; cbn in E; try discriminate.
    1,2: inversion E; exists []; reflexivity.
    destruct (existsb (String.eqb g) imported); [eapply IH; exact E|]. destruct (callees lib g) as [cs|]; [|discriminate]. cbn in E.
    destruct (IH _ _ _ E) as [front ->]. exists (front ++ [g]). rewrite <- app_assoc. reflexivity. }
  intros E. exact (X _ _ _ _ E).
Qed.
Open Scope string_scope.
Example C66_nonvacuous :
  let lib := [("mm", ["check"; "mm2"]); ("mm2", ["check"; "mm"]); ("check", []); ("unused", ["check"])] in
  NoDup (map fst lib) /\
  importLibraryFunctions lib (length ["mm"; "check"] + remaining [] lib) ["mm"; "check"] = Some ["mm2"; "mm"; "check"] /\
  importLibraryFunctions (lib ++ [("bad", ["missing"])]) 20 ["bad"] = None.
Proof.
  cbn zeta. split; [|split; reflexivity]. repeat constructor; cbn; intuition discriminate.
Qed.

Print Assumptions C67_shape_operands_fit. Print Assumptions C67_dtype_operands_fit. Print Assumptions C67_argument_unique.
Print Assumptions C67_shape_argument. Print Assumptions C67_dtype_argument. Print Assumptions C67_shape_arguments. Print Assumptions C67_dtype_arguments.
Print Assumptions C67_as_is_refuted. Print Assumptions C67_more_operands_refuted.
Print Assumptions C66_imported_functions. Print Assumptions C66_last_first.
