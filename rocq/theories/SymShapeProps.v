(** Properties C04-C06: symbolic shapes (python/torch_mlir/extras/fx_importer.py). *)
From Coq Require Import String ZArith List Lia Bool Sorting.Sorted.
From Verif Require Import Prelude SymShapeModel SymShapeSpec SymShapeProofs.
Import ListNotations.
Open Scope Z_scope.

(** C04: whenever the translated expression has a value on the symbol operands, it is the
    value of the source expression, for every symbol assignment. *)
Theorem C04_affine_value_is_sympy_value : forall m syms env e a v,
  (forall s i, map_get m s = Some i -> nth_error syms i = Some (env s)) ->
  to_affine m e = Some a -> eval_affine syms a = Some v -> eval_sympy env e = Some v.
Proof. intros. eapply to_affine_sound; eauto. Qed.

(** C04: and it has a value whenever every modulo has a positive divisor. *)
Theorem C04_affine_value_defined : forall m syms env e a,
  (forall s i, map_get m s = Some i -> nth_error syms i = Some (env s)) ->
  to_affine m e = Some a -> mods_positive env e ->
  exists v, eval_affine syms a = Some v /\ eval_sympy env e = Some v.
Proof. intros. eapply to_affine_defined; eauto. Qed.

(** C04: exactly the supported expressions over known symbols are accepted. *)
Theorem C04_accepts_exactly_supported : forall m e,
  (exists a, to_affine m e = Some a) <-> supported (fun s => map_get m s <> None) e.
Proof. exact to_affine_supported. Qed.

Example C04_nonvacuous : (* (3 + s0*s1^2) mod (s0 - 1) *)
  exists a, to_affine [("s0", 0%nat); ("s1", 1%nat)]%string
    (EMod (EAdd [EInt 3; EMul [ESym "s0"; EPow (ESym "s1") (EInt 2)]])
          (EAdd [ESym "s0"; EInt (-1)])) = Some a /\ eval_affine [5; 2] a = Some 3.
Proof. eexists. split; [reflexivity|]. vm_compute. reflexivity. Qed.

(** C05: the emitted op. For every assignment of the symbols, evaluating each affine
    expression on the operand list gives that dimension's size. *)
Theorem C05_bound_shape_is_true_shape : forall bound dims exprs operands,
  bind_symbolic_shape bound dims = Some (exprs, operands) ->
  forall env, Forall2 (fun d a =>
     (forall v, eval_affine (map env operands) a = Some v -> dim_value env d = Some v) /\
     (mods_positive env (dim_expr d) ->
        exists v, eval_affine (map env operands) a = Some v /\ dim_value env d = Some v))
     dims exprs.
Proof. intros. now apply (bind_spec _ _ _ _ H). Qed.

(** C05: the operands are exactly the symbols occurring in the shape, once each, sorted by
    name, and every one is an imported symbol. *)
Theorem C05_operands_are_the_free_symbols : forall bound dims exprs operands,
  bind_symbolic_shape bound dims = Some (exprs, operands) ->
  NoDup operands /\ Sorted (fun a b => String.leb a b = true) operands /\
  (forall s, In s operands <-> exists d, In d dims /\ In s (dim_syms d)) /\
  (forall s, In s operands -> In s bound).
Proof. intros. now apply (bind_spec _ _ _ _ H). Qed.

(** C05: it succeeds exactly for supported dimensions over imported symbols. *)
Theorem C05_bind_succeeds_iff : forall bound dims,
  (exists r, bind_symbolic_shape bound dims = Some r) <->
  Forall (fun d => supported (fun s => In s bound) (dim_expr d)) dims.
Proof. exact bind_succeeds. Qed.

Example C05_nonvacuous :
  exists exprs, bind_symbolic_shape ["s1"; "s0"; "s7"]%string
    [DSym (EMul [ESym "s1"; ESym "s0"]); DInt 4; DSym (EAdd [EInt 1; ESym "s1"])]
  = Some (exprs, ["s0"; "s1"]%string) /\
  map (eval_affine [10; 3]) exprs = [Some 30; Some 4; Some 4].
Proof. eexists. split; [vm_compute; reflexivity|]. vm_compute. reflexivity. Qed.

Lemma integer_ranges : forall ranges,
  existsb (fun kv : string * vrange => is_sym_int (r_lower (snd kv)) &&
     is_sym_int (r_upper (snd kv)) && negb (r_is_bool (snd kv))) ranges = true <->
  exists kv, In kv ranges /\ integer_range (snd kv).
Proof.
  assert (B : forall b, is_sym_int b = true <-> integer_bound b).
  { unfold integer_bound. intros []; simpl; split; intros H; eauto; try discriminate;
      destruct H as [H|[H|[y H]]]; discriminate. }
  intros ranges. rewrite existsb_exists. split; intros [kv [H1 H2]]; exists kv; split; auto.
  - apply andb_true_iff in H2. destruct H2 as [H2 H3]. apply andb_true_iff in H2.
    destruct H2 as [H2 H4]. rewrite B in H2, H4. split; auto. split; auto.
    now apply negb_true_iff.
  - destruct H2 as (H2 & H3 & H4). apply B in H2, H3. now rewrite H2, H3, H4.
Qed.

(** C06: the table is replaced exactly when some range is an integer range, and the import
    succeeds whenever all bounds fit a signed 64-bit attribute. *)
Theorem C06_guards_replaced : forall old ranges,
  (exists kv, In kv ranges /\ integer_range (snd kv)) ->
  (forall kv, In kv ranges -> bound_fits (r_lower (snd kv)) /\ bound_fits (r_upper (snd kv))) ->
  exists g, set_symbolic_guards old ranges = Some g /\ import_guards g = Some g /\
    map fst g = map fst ranges.
Proof.
  intros old ranges He Hf. unfold set_symbolic_guards. apply integer_ranges in He. rewrite He.
  clear He old. induction ranges as [|[k r] rs IH].
  - exists []. auto.
  - destruct IH as (g & G1 & G2 & G3); [intros; apply Hf; now right|].
    destruct (Hf (k, r) (or_introl eq_refl)) as [F1 F2]. simpl in F1, F2.
    assert (B : forall up b, bound_fits b -> exists z, sympy_int_to_int up b = Some z /\
              integer_attr64 z = Some z).
    { intros up b Hb. unfold integer_attr64, int64_min, int64_max.
      destruct b as [z|p q| | | | |]; simpl in Hb; try contradiction; simpl; eexists; split;
        try reflexivity; unfold fits64 in *.
      - assert ((-9223372036854775808 <=? z) && (z <=? 9223372036854775807) = true) as ->;
          [|reflexivity]. apply andb_true_iff. split; apply Z.leb_le; lia.
      - destruct Hb as (Hq & Hl & Hu).
        assert (L1 : - 2 ^ 63 <= p / q) by (apply Z.div_le_lower_bound; lia).
        assert (U1 : p / q <= 2 ^ 63 - 1) by (apply Z.div_le_upper_bound; lia).
        assert (L2 : - (2 ^ 63 - 1) <= (- p) / q) by (apply Z.div_le_lower_bound; lia).
        assert (U2 : (- p) / q <= 2 ^ 63) by (apply Z.div_le_upper_bound; lia).
        match goal with |- (if ?c then _ else _) = _ => assert (c = true) as ->; [|reflexivity] end.
        destruct up; apply andb_true_iff; split; apply Z.leb_le; lia. }
    destruct (B true _ F1) as (lo & L1 & L2), (B false _ F2) as (hi & H1 & H2).
    exists ((k, (lo, hi)) :: g). cbn [mapM fst snd]. rewrite L1. cbn [obind]. rewrite H1.
    cbn [obind]. rewrite G1. cbn [obind]. split; [reflexivity|]. split.
    + unfold import_guards in *. cbn [mapM fst snd]. rewrite L2. cbn [obind]. rewrite H2.
      cbn [obind]. rewrite G2. reflexivity.
    + simpl. now rewrite G3.
Qed.
Theorem C06_no_integer_range_keeps_the_table : forall old ranges,
  ~ (exists kv, In kv ranges /\ integer_range (snd kv)) ->
  set_symbolic_guards old ranges = Some old.
Proof.
  intros old ranges H. unfold set_symbolic_guards. rewrite <- integer_ranges in H.
  match goal with |- (if ?c then _ else _) = _ => destruct c end; [exfalso; auto|reflexivity].
Qed.
(** C06: infinite bounds become the signed 64-bit extremes. *)
Theorem C06_infinite_bounds : forall up,
  sympy_int_to_int up BOo = Some (2 ^ 63 - 1) /\ sympy_int_to_int up BIntOo = Some (2 ^ 63 - 1) /\
  sympy_int_to_int up BNegOo = Some (- 2 ^ 63) /\ sympy_int_to_int up BNegIntOo = Some (- 2 ^ 63).
Proof. intros []; repeat split. Qed.

(** C06: emitted bounds contain every admissible 64-bit size. *)
Theorem C06_guards_contain_admissible : forall old ranges g out,
  set_symbolic_guards old ranges = Some g -> import_guards g = Some out ->
  (exists kv, In kv ranges /\ integer_range (snd kv)) ->
  (forall kv, In kv ranges -> wf_bnd (r_lower (snd kv)) /\ wf_bnd (r_upper (snd kv))) ->
  map fst out = map fst ranges /\
  Forall2 (fun kv o => let '(lo, hi) := snd o in
     int64_min <= lo <= int64_max /\ int64_min <= hi <= int64_max /\
     forall n, int64_min <= n <= int64_max ->
       ge_lower (r_lower (snd kv)) n -> le_upper (r_upper (snd kv)) n -> lo <= n <= hi) ranges out.
Proof.
  intros old ranges g out H1 H2 He Hw. rewrite <- integer_ranges in He.
  pose proof (guards_spec _ _ _ _ H1 H2 He) as F. clear H1 H2 He.
  split.
  - induction F; simpl; auto. destruct H as [-> _]. f_equal. apply IHF.
    intros; apply Hw; now right.
  - induction F as [|kv o r out' H F IH]; constructor.
    + destruct o as [k [lo hi]]. simpl in *. destruct H as (_ & Hl & Hu & F1 & F2).
      destruct (Hw kv (or_introl eq_refl)) as [W1 W2].
      split; [exact F1|]. split; [exact F2|]. intros n Hn Hg Hle. split.
      * exact (lower_contains _ _ _ W1 Hl Hn Hg).
      * exact (upper_contains _ _ _ W2 Hu Hn Hle).
    + apply IH. intros; apply Hw; now right.
Qed.

(** C06: for ordinary ranges (no +oo lower or -oo upper bound) they are exact. *)
Theorem C06_guards_exact : forall old ranges g out,
  set_symbolic_guards old ranges = Some g -> import_guards g = Some out ->
  (exists kv, In kv ranges /\ integer_range (snd kv)) ->
  (forall kv, In kv ranges -> wf_bnd (r_lower (snd kv)) /\ wf_bnd (r_upper (snd kv)) /\
     r_lower (snd kv) <> BOo /\ r_lower (snd kv) <> BIntOo /\
     r_upper (snd kv) <> BNegOo /\ r_upper (snd kv) <> BNegIntOo) ->
  Forall2 (fun kv o => let '(lo, hi) := snd o in
     forall n, int64_min <= n <= int64_max ->
       (ge_lower (r_lower (snd kv)) n /\ le_upper (r_upper (snd kv)) n <-> lo <= n <= hi))
    ranges out.
Proof.
  intros old ranges g out H1 H2 He Hw. rewrite <- integer_ranges in He.
  pose proof (guards_spec _ _ _ _ H1 H2 He) as F. clear H1 H2 He.
  induction F as [|kv o r out' H F IH]; constructor.
  - destruct o as [k [lo hi]]. simpl in *. destruct H as (_ & Hl & Hu & F1 & F2).
    destruct (Hw kv (or_introl eq_refl)) as (W1 & W2 & A & B & C & D).
    intros n Hn. rewrite (lower_exact _ _ _ W1 A B Hl Hn), (upper_exact _ _ _ W2 C D Hu Hn). tauto.
  - apply IH. intros; apply Hw; now right.
Qed.

Example C06_nonvacuous :
  exists g, set_symbolic_guards [] [("s0", {| r_lower := BInt 2; r_upper := BIntOo; r_is_bool := false |});
       ("s1", {| r_lower := BRat 5 2; r_upper := BRat 21 2; r_is_bool := false |})]%string = Some g /\
    import_guards g = Some [("s0", (2, int64_max)); ("s1", (3, 10))]%string.
Proof. eexists. split; [vm_compute; reflexivity|]. vm_compute. reflexivity. Qed.

(** Finding: the guard table is only replaced when the new program has an integer range,
    so a second import with the same importer state keeps the first program's symbols. *)
Theorem C06_stale_guards_refuted : exists first second g1 g2,
  set_symbolic_guards [] first = Some g1 /\ set_symbolic_guards g1 second = Some g2 /\
  exists s, In s (map fst g2) /\ ~ In s (map fst second).
Proof.
  exists [("s0", {| r_lower := BInt 2; r_upper := BInt 9; r_is_bool := false |})]%string, [],
    [("s0", (2, 9))]%string, [("s0", (2, 9))]%string.
  split; [reflexivity|]. split; [reflexivity|]. exists "s0"%string. simpl. auto.
Qed.

(** Finding: one boolean range next to an integer range makes the conversion raise. *)
Theorem C06_bool_range_raises_refuted : exists ranges,
  (forall kv, In kv ranges -> wf_bnd (r_lower (snd kv)) /\ wf_bnd (r_upper (snd kv))) /\
  set_symbolic_guards [] ranges = None.
Proof.
  exists [("s0", {| r_lower := BInt 2; r_upper := BInt 9; r_is_bool := false |});
          ("b", {| r_lower := BBool; r_upper := BBool; r_is_bool := true |})]%string.
  split; [|reflexivity]. intros kv [<-|[<-|[]]]; simpl; auto.
Qed.

Print Assumptions C04_affine_value_is_sympy_value.
Print Assumptions C04_affine_value_defined.
Print Assumptions C04_accepts_exactly_supported.
Print Assumptions C05_bound_shape_is_true_shape.
Print Assumptions C05_operands_are_the_free_symbols.
Print Assumptions C05_bind_succeeds_iff.
Print Assumptions C06_guards_contain_admissible.
Print Assumptions C06_guards_exact.
Print Assumptions C06_stale_guards_refuted.
Print Assumptions C06_bool_range_raises_refuted.
Print Assumptions C06_guards_replaced.
Print Assumptions C06_no_integer_range_keeps_the_table.
Print Assumptions C06_infinite_bounds.
