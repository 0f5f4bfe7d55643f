(** C13, C16: symbolic scalar operators and while loops. *)
From Coq Require Import ZArith Lia Bool Ascii String List.
From Verif Require Import Prelude FxMiscModel FxMiscSpec.
Import ListNotations.
Open Scope list_scope.
Open Scope Z_scope.

Section C13.
  Context {F R : Type} (of_int : Z -> F) (env : Z -> @sval F).
  Variables (pint : pyop -> list Z -> option R) (pfloat : pyop -> list F -> option R).
  Variables (tint : torch_op -> list Z -> option R) (tfloat : torch_op -> list F -> option R).
  Hypothesis operators : same_operators pint pfloat tint tfloat.
  Hypothesis add_symmetric : symmetric pfloat add.
  Hypothesis ne_symmetric : symmetric pfloat ne.
  Let Python := python of_int env pint pfloat.
  Let Torch := torch of_int env tint tfloat.

  Lemma counterpart_table o : o <> mod_ -> counterpart o (PY_BUILTIN_TO_TORCH_OP o).
  Proof. destruct o; intros N; try constructor. congruence. Qed.
  Lemma int_value a : well_typed env a -> arg_type a = PyInt -> exists z, sarg_value of_int env a = Some (VI z).
  Proof.
    destruct a as [n []| | | |]; cbn; intros W T; try discriminate; eauto. destruct W as [z ->]. eauto.
  Qed.
  Lemma float_value a : well_typed env a -> arg_type a = PyFloat -> exists f, sarg_value of_int env a = Some (VF f).
  Proof.
    destruct a as [n []| | | |]; cbn; intros W T; try discriminate; eauto; try contradiction. destruct W as [z ->]. eauto.
  Qed.
  Lemma promoted_value a z : well_typed env a -> sarg_value of_int env a = Some (VI z) -> sarg_value of_int env (promote of_int a) = Some (VF (of_int z)).
  Proof.
    destruct a as [n []| | | |]; cbn; intros W T; try discriminate; try contradiction.
    - injection T as ->. reflexivity.
    - destruct W as [f E]. congruence.
    - injection T as ->. reflexivity.
  Qed.
  Lemma typed a : well_typed env a -> arg_type a = PyInt \/ arg_type a = PyFloat.
  Proof. destruct a as [n []| | | |]; cbn; intros W; auto; contradiction. Qed.

  (** The comparisons that are not symmetric, with an integer first and a float second. *)
  Definition reversed (o : pyop) (args : list (@sarg F)) : Prop :=
    (o = lt \/ o = ge \/ o = gt) /\ map arg_type args = [PyInt; PyFloat].

  (** C13: apart from those, and from Python's modulus, the imported operator computes what Python computes. *)
  Theorem C13_symbolic_operators_partial o args : o <> mod_ -> length args = arity o -> Forall (well_typed env) args -> ~ reversed o args ->
    exists t ov args', import_symbolic of_int o args = Some (t, ov, args') /\ Torch t ov args' = Python o args.
  Proof.
    intros NM L W NR. destruct (operators o _ (counterpart_table o NM)) as [TI TF].
    unfold Python, Torch, python, torch, import_symbolic.
    destruct args as [|a [|b [|]]]; try (destruct o; discriminate L).
    - assert (o = neg) by (destruct o; try discriminate L; reflexivity). subst o.
      apply Forall_inv in W. destruct (typed a W) as [T|T]; cbn [map mapM forallb existsb]; rewrite T; cbn [is_int andb orb].
      + destruct (int_value a W T) as [z E]. do 3 eexists. split; [reflexivity|]. cbn [mapM]. rewrite E. cbn. rewrite TI. reflexivity.
      + destruct (float_value a W T) as [f E]. do 3 eexists. split; [reflexivity|]. cbn [mapM]. rewrite E. cbn. rewrite TF. reflexivity.
    - pose proof (Forall_inv W) as Wa. apply Forall_inv_tail, Forall_inv in W as Wb. clear W.
      destruct (typed a Wa) as [Ta|Ta], (typed b Wb) as [Tb|Tb]; cbn [map forallb existsb]; rewrite Ta, Tb; cbn [is_int andb orb].
      + destruct (int_value a Wa Ta) as [x Ea], (int_value b Wb Tb) as [y Eb]. do 3 eexists. split; [reflexivity|].
        cbn [mapM]. rewrite Ea, Eb. cbn. rewrite TI. reflexivity.
      + destruct (int_value a Wa Ta) as [x Ea], (float_value b Wb Tb) as [y Eb].
        destruct (has_float_int o) eqn:H.
        * cbn [nth_error obind]. rewrite Tb. cbn [is_float]. do 3 eexists. split; [reflexivity|]. cbn [mapM]. rewrite Ea, Eb. cbn. rewrite TF.
          destruct o; try discriminate H; try (exfalso; apply NR; split; [solve [auto]|cbn; rewrite Ta, Tb; reflexivity]); [apply add_symmetric|apply ne_symmetric].
        * do 3 eexists. split; [reflexivity|]. cbn [mapM]. rewrite Ea, Eb, (promoted_value a x Wa Ea). cbn. rewrite TF. reflexivity.
      + destruct (float_value a Wa Ta) as [x Ea], (int_value b Wb Tb) as [y Eb].
        destruct (has_float_int o) eqn:H.
        * cbn [nth_error obind]. rewrite Tb. cbn [is_float]. do 3 eexists. split; [reflexivity|]. cbn [mapM]. rewrite Ea, Eb. cbn. rewrite TF. reflexivity.
        * do 3 eexists. split; [reflexivity|]. cbn [mapM]. rewrite Ea, Eb, (promoted_value b y Wb Eb). cbn. rewrite TF. reflexivity.
      + destruct (float_value a Wa Ta) as [x Ea], (float_value b Wb Tb) as [y Eb]. do 3 eexists. split; [reflexivity|].
        cbn [mapM]. rewrite Ea, Eb. cbn. rewrite TF. reflexivity.
  Qed.
  (** C13: those comparisons compare the operands in the opposite order. *)
  Theorem C13_mixed_comparisons_reversed_refuted o a b : reversed o [a; b] -> well_typed env a -> well_typed env b ->
    exists t args', import_symbolic of_int o [a; b] = Some (t, ov_float_int, args') /\ Torch t ov_float_int args' = Python o [b; a].
  Proof.
    intros [O T] Wa Wb. cbn in T. injection T as Ta Tb.
    assert (NM : o <> mod_) by (intros ->; intuition discriminate). destruct (operators o _ (counterpart_table o NM)) as [TI TF].
    destruct (int_value a Wa Ta) as [x Ea], (float_value b Wb Tb) as [y Eb].
    unfold Python, Torch, python, torch, import_symbolic. cbn [map forallb existsb]. rewrite Ta, Tb. cbn [is_int andb orb].
    assert (H : has_float_int o = true) by (destruct O as [ -> |[ -> | -> ]]; reflexivity). rewrite H. cbn [nth_error obind]. rewrite Tb. cbn [is_float].
    do 2 eexists. split; [reflexivity|]. cbn [mapM]. rewrite Ea, Eb. cbn. rewrite TF. reflexivity.
  Qed.
End C13.
(** A concrete meaning: floats are integers here, and every operator is exact. *)
Definition plain_int (o : pyop) (l : list Z) : option Z :=
  match o, l with
  | add, [a; b] => Some (a + b) | sub, [a; b] => Some (a - b) | mul, [a; b] => Some (a * b)
  | lt, [a; b] => Some (Z.b2z (a <? b)) | gt, [a; b] => Some (Z.b2z (b <? a)) | ge, [a; b] => Some (Z.b2z (b <=? a)) | le, [a; b] => Some (Z.b2z (a <=? b))
  | ne, [a; b] => Some (Z.b2z (negb (a =? b))) | eq, [a; b] => Some (Z.b2z (a =? b)) | neg, [a] => Some (- a)
  | mod_, [a; b] => Some (a mod b) | floordiv, [a; b] => Some (a / b) | _, _ => None
  end.
Definition plain_torch (t : torch_op) (l : list Z) : option Z :=
  match t with
  | aten_div => None | aten_mul => plain_int mul l | aten_add => plain_int add l | aten_sub => plain_int sub l | aten_lt => plain_int lt l
  | aten_le => plain_int le l | aten_ge => plain_int ge l | aten_ne => plain_int ne l | aten_gt => plain_int gt l | aten_eq => plain_int eq l
  | aten_floordiv => plain_int floordiv l | aten_neg => plain_int neg l
  | aten_fmod => match l with [a; b] => Some (Z.rem a b) | _ => None end (** remainder with the sign of the dividend *)
  end.
Lemma plain_operators : same_operators plain_int plain_int plain_torch plain_torch.
Proof. intros o t []; split; reflexivity. Qed.
Example C13_nonvacuous :
  same_operators plain_int plain_int plain_torch plain_torch /\ symmetric plain_int add /\ symmetric plain_int ne /\
  Forall (well_typed (fun _ => VI 5)) [SNode (F:=Z) 0 PyInt; SFloat 7] /\
  import_symbolic (fun z => z) sub [SNode (F:=Z) 0 PyInt; SFloat 7] = Some (aten_sub, ov_float, [SPromoted 0; SFloat 7]).
Proof.
  split; [exact plain_operators|]. split; [intros a b; cbn; f_equal; lia|]. split.
  - intros a b. cbn. f_equal. f_equal. rewrite Z.eqb_sym. reflexivity.
  - split; [|reflexivity]. repeat constructor. cbn. eauto.
Qed.
(** C13: 1 < 2.0 is imported as a comparison that is false. *)
Theorem C13_one_less_than_two_refuted :
  python (fun z => z) (fun _ => VI 0) plain_int plain_int lt [SInt (F:=Z) 1; SFloat 2] = Some 1 /\
  exists t ov args, import_symbolic (fun z => z) lt [SInt (F:=Z) 1; SFloat 2] = Some (t, ov, args) /\
    torch (fun z => z) (fun _ => VI 0) plain_torch plain_torch t ov args = Some 0.
Proof. split; [reflexivity|]. do 3 eexists. split; reflexivity. Qed.
(** C13: Python's modulus is imported as a remainder with the sign of the dividend. *)
Theorem C13_modulus_refuted :
  python (fun z => z) (fun _ => VI 0) plain_int plain_int mod_ [SInt (F:=Z) (-7); SInt 3] = Some 2 /\
  exists t ov args, import_symbolic (fun z => z) mod_ [SInt (F:=Z) (-7); SInt 3] = Some (t, ov, args) /\
    torch (fun z => z) (fun _ => VI 0) plain_torch plain_torch t ov args = Some (-1).
Proof. split; [reflexivity|]. do 3 eexists. split; reflexivity. Qed.
(** C13: where the operands have the same sign they agree. *)
Theorem C13_modulus_partial a b : 0 <= a -> 0 < b ->
  exists t ov args, import_symbolic (fun z => z) mod_ [SInt (F:=Z) a; SInt b] = Some (t, ov, args) /\
    torch (fun z => z) (fun _ => VI 0) plain_torch plain_torch t ov args =
    python (fun z => z) (fun _ => VI 0) plain_int plain_int mod_ [SInt (F:=Z) a; SInt b].
Proof. intros A B. do 3 eexists. split; [reflexivity|]. cbn. f_equal. rewrite Z.rem_mod_nonneg by lia. reflexivity. Qed.

(** * C16 *)
Lemma mapM_app {A B} (f : A -> option B) l r : mapM f (l ++ r) = do x <- mapM f l; do y <- mapM f r; Some (x ++ y).
Proof.
  induction l as [|a l IH]; cbn [app mapM obind].
  - destruct (mapM f r); reflexivity.
  - rewrite IH. destruct (f a); cbn [obind]; [|reflexivity]. destruct (mapM f l); cbn [obind]; [|reflexivity]. destruct (mapM f r); reflexivity.
Qed.
Section C16.
  Context {V : Type} (conds : string -> list V -> option bool) (bodies : string -> list V -> option (list V)) (cf bf : string).
  Let cond := conds cf.
  Let body := bodies bf.
  Lemma block_all (vals : list V) : mapM (block_value vals) (seq 1 (length vals)) = Some vals.
  Proof.
    rewrite <- seq_shift. induction vals as [|v vals IH] using rev_ind; [reflexivity|]. rewrite app_length. cbn [length].
    rewrite Nat.add_comm. rewrite <- (Nat.add_comm (length vals)). rewrite seq_app, map_app. cbn [seq map Nat.add].
    assert (E : forall l, (forall i, In i l -> (i < length vals)%nat) -> mapM (block_value (vals ++ [v])) (map S l) = mapM (block_value vals) (map S l)).
    { induction l as [|i l IHl]; intros B; [reflexivity|]. cbn [map mapM block_value]. rewrite nth_error_app1 by (apply B; left; reflexivity).
      rewrite IHl by (intros; apply B; right; assumption). reflexivity. }
    rewrite mapM_app, E, IH by (intros i I; apply in_seq in I; lia). cbn [mapM block_value obind].
    rewrite nth_error_app2, Nat.sub_diag by lia. reflexivity.
  Qed.
  Lemma pick_all (vals : list V) : mapM (pick vals) (seq 0 (length vals)) = Some vals.
  Proof.
    induction vals as [|v vals IH] using rev_ind; [reflexivity|]. rewrite app_length. cbn [length].
    rewrite seq_app. cbn [seq Nat.add]. rewrite mapM_app.
    assert (E : forall l, (forall i, In i l -> (i < length vals)%nat) -> mapM (pick (vals ++ [v])) l = mapM (pick vals) l).
    { induction l as [|i l IHl]; intros B; [reflexivity|]. cbn [mapM]. unfold pick at 1 3. rewrite nth_error_app1 by (apply B; left; reflexivity).
      rewrite IHl by (intros; apply B; right; assumption). reflexivity. }
    rewrite E, IH by (intros i I; apply in_seq in I; lia). cbn [mapM obind]. unfold pick.
    rewrite nth_error_app2, Nat.sub_diag by lia. reflexivity.
  Qed.
  Definition ir_of (carried : list V) : loop_ir V :=
    {| initial_callee := cf; initial_operands := carried; max_iterations := int64_max; loop_operands := carried;
       result_count := length carried; block_args := 1 + length carried; body_callee := bf; body_operands := seq 1 (length carried);
       body_results := length carried; cond_callee := cf; cond_operands := seq 0 (length carried); yielded := seq 0 (length carried) |}.
  Lemma turn_spec carried vals c out : length vals = length carried ->
    (turn conds bodies (ir_of carried) vals = Some (c, out) <-> body vals = Some out /\ length out = length vals /\ cond out = Some c).
  Proof.
    intros L. unfold turn, ir_of, body_operands, body_callee, body_results, cond_operands, cond_callee, yielded. rewrite <- L, block_all. cbn [obind].
    change (bodies bf vals) with (body vals). destruct (body vals) as [res|]; cbn [obind]; [|split; [discriminate|intros [[=] _]]].
    unfold guard. destruct (Nat.eqb_spec (length res) (length vals)) as [E|E]; cbn [obind].
    - rewrite <- E, pick_all. cbn [obind]. change (conds cf res) with (cond res). remember (cond res) as cr eqn:EC; destruct cr; cbn [obind]; split.
      + intros [= <- <-]. auto.
      + intros ([= <-] & _ & X). congruence.
      + discriminate.
      + intros ([= <-] & _ & X). congruence.
    - split; [discriminate|]. intros ([= <-] & X & _). congruence.
  Qed.
  Lemma import_ir carried : (2 <= length carried)%nat -> import_while cf bf [WTuple carried; WTuple []] (ValTuple (length carried)) = Some (ir_of carried).
  Proof.
    intros L. unfold import_while, while_results. destruct (Nat.ltb_spec 1 (length carried)); [|lia]. cbn [obind flatten_carries flat_map]. rewrite !app_nil_r. reflexivity.
  Qed.
  Lemma loop_follows carried n : forall vals r trip, while_runs cond body [] n vals r -> length vals = length carried -> trip + Z.of_nat n <= int64_max ->
    exists c, cond vals = Some c /\ loop_runs conds bodies (ir_of carried) trip c vals r.
  Proof.
    induction n as [|n IH]; intros vals r trip W L B; inversion W; subst; rewrite app_nil_r in *.
    - exists false. split; [assumption|constructor].
    - exists true. split; [assumption|]. destruct (IH vals' r (trip + 1)) as (c & C & Q); [assumption|congruence|lia|].
      eapply lr_turn; [cbn; lia| |exact Q]. apply turn_spec; auto.
  Qed.
  Lemma loop_reflects carried trip c vals r : loop_runs conds bodies (ir_of carried) trip c vals r -> cond vals = Some c -> length vals = length carried -> 0 <= trip <= int64_max ->
    (exists n, trip + Z.of_nat n <= int64_max /\ while_runs cond body [] n vals r) \/
    (exists n, trip + Z.of_nat n = int64_max /\ after_turns cond body n vals r).
  Proof.
    induction 1 as [trip vals|trip c vals M|trip vals c vals' r M T _ IH]; intros C L B.
    - left. exists O. split; [lia|]. constructor. rewrite app_nil_r. exact C.
    - right. exists O. cbn in M. split; [lia|constructor].
    - cbn in M. apply turn_spec in T as (Bo & L' & C'); [|exact L]. destruct IH as [(n & N & W)|(n & N & W)]; [exact C'|congruence|lia| |].
      + left. exists (S n). split; [lia|]. apply (wr_turn _ _ _ n vals vals'); rewrite ?app_nil_r; auto.
      + right. exists (S n). split; [lia|]. apply (at_turn _ _ n vals vals'); auto.
  Qed.
  (** C16: with two or more carried values and no other inputs, the emitted loop computes what the source loop
      computes, for every number of turns up to the limit. *)
  Theorem C16_loop_computes_source_partial carried r n : (2 <= length carried)%nat -> Z.of_nat n <= int64_max -> while_runs cond body [] n carried r ->
    exists ir, import_while cf bf [WTuple carried; WTuple []] (ValTuple (length carried)) = Some ir /\ runs conds bodies ir r.
  Proof.
    intros L B W. exists (ir_of carried). split; [apply import_ir; exact L|]. destruct (loop_follows carried n carried r 0 W eq_refl B) as (c & C & Q).
    split; [reflexivity|]. split; [reflexivity|]. exists c. split; assumption.
  Qed.
  (** C16: and it computes nothing else, unless the limit is reached. *)
  Theorem C16_loop_only_computes_source carried r ir : import_while cf bf [WTuple carried; WTuple []] (ValTuple (length carried)) = Some ir -> runs conds bodies ir r ->
    (exists n, Z.of_nat n <= int64_max /\ while_runs cond body [] n carried r) \/
    (exists n, Z.of_nat n = int64_max /\ after_turns cond body n carried r).
  Proof.
    intros E (_ & _ & c & C & Q). assert (L : (2 <= length carried)%nat).
    { unfold import_while, while_results in E. destruct (Nat.ltb_spec 1 (length carried)); [lia|discriminate]. }
    rewrite (import_ir carried L) in E. injection E as <-. assert (M : 0 <= int64_max) by (unfold int64_max; lia).
    exact (loop_reflects carried 0 c carried r Q C eq_refl (conj (Z.le_refl 0) M)).
  Qed.
  (** C16: the same for a single carried value, if the metadata of the node is the tensor itself. *)
  Theorem C16_single_tensor_computes_source v r n : Z.of_nat n <= int64_max -> while_runs cond body [] n [v] r ->
    exists ir, import_while cf bf [WValue v; WTuple []] ValTensor = Some ir /\ runs conds bodies ir r.
  Proof.
    intros B W. exists (ir_of [v]). split; [reflexivity|]. destruct (loop_follows [v] n [v] r 0 W eq_refl B) as (c & C & Q).
    split; [reflexivity|]. split; [reflexivity|]. exists c. split; assumption.
  Qed.
  (** C16: the limit is the largest signed 64-bit integer. *)
  Theorem C16_limit : -2 ^ 63 <= int64_max < 2 ^ 63 /\ ~ (int64_max + 1 < 2 ^ 63).
  Proof. unfold int64_max. lia. Qed.
  (** C16: with other inputs the emitted loop is malformed: it has more operands than results. *)
  Theorem C16_additional_inputs_refuted carried extra ir r : extra <> [] ->
    import_while cf bf [WTuple carried; WTuple extra] (ValTuple (length carried)) = Some ir -> ~ runs conds bodies ir r.
  Proof.
    intros N E (L & _). unfold import_while in E. destruct (while_results _) as [n|] eqn:W; cbn [obind] in E; [|discriminate]. injection E as <-. cbn in L.
    unfold while_results in W. destruct (Nat.ltb 1 (length carried)); [|discriminate]. injection W as <-.
    rewrite !app_length in L. cbn in L. destruct extra; [congruence|cbn in L; lia].
  Qed.
  (** C16: a loop with a single carried value is not imported. *)
  Theorem C16_single_carried_value_refuted (v : V) extra : import_while cf bf [WTuple [v]; WTuple extra] (ValTuple (length [v])) = None.
  Proof. reflexivity. Qed.
  (** C16: beyond the limit the loop stops early. *)
  Theorem C16_limit_stops_early carried vals n : (2 <= length carried)%nat -> Z.of_nat n = int64_max -> after_turns cond body n carried vals ->
    cond carried = Some true -> cond vals = Some true ->
    exists ir, import_while cf bf [WTuple carried; WTuple []] (ValTuple (length carried)) = Some ir /\ runs conds bodies ir vals.
  Proof.
    intros L N A C0 D. exists (ir_of carried). split; [apply import_ir; exact L|]. split; [reflexivity|]. split; [reflexivity|]. exists true. split; [exact C0|].
    assert (G : forall k vals', after_turns cond body k vals' vals -> forall trip, length vals' = length carried -> trip + Z.of_nat k = int64_max ->
      loop_runs conds bodies (ir_of carried) trip true vals' vals).
    { clear - D. induction 1 as [vals'|k vals' vals'' r C B LL A IH]; intros trip L' T.
      - apply lr_limit. cbn [ir_of max_iterations]. lia.
      - assert (C'' : cond vals'' = Some true) by (destruct A; assumption).
        eapply (lr_turn _ _ _ trip vals' true vals''); [cbn [ir_of max_iterations]; lia|apply turn_spec; auto|]. apply IH; [exact D|congruence|lia]. }
    apply (G n); [exact A|reflexivity|lia].
  Qed.
End C16.
(** A loop that counts to three, carrying a second value. *)
Definition count_cond (_ : string) (l : list Z) : option bool := match l with [i; _] => Some (i <? 3) | _ => None end.
Definition count_body (_ : string) (l : list Z) : option (list Z) := match l with [i; s] => Some [i + 1; s + i] | _ => None end.
Example C16_nonvacuous : while_runs (count_cond "c") (count_body "b") [] 3 [0; 10] [3; 13].
Proof. do 3 (eapply wr_turn; [reflexivity|reflexivity|reflexivity|]). apply wr_done. reflexivity. Qed.

Print Assumptions C13_symbolic_operators_partial.
Print Assumptions C16_loop_computes_source_partial.
Print Assumptions C16_loop_only_computes_source.
