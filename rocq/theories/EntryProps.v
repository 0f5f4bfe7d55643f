(** C129: what the entry points run on an imported program. *)
From Coq Require Import Bool PeanoNat Ascii Lia Sorted String List.
From Verif Require Import Prelude EntryModel.
From Verif Require RunModel.
Import ListNotations.
Open Scope string_scope.
Open Scope list_scope.
Open Scope nat_scope.

(** ** Texts *)
Fixpoint letters (s : string) : list ascii := match s with EmptyString => [] | String c r => c :: letters r end.
Definition free (c : ascii) (s : string) : Prop := ~ In c (letters s).
Lemma letters_app a b : letters (String.append a b) = letters a ++ letters b.
Proof. induction a as [|c a IH]; [reflexivity|]. cbn. f_equal. exact IH. Qed.
Lemma append_nil a : String.append a "" = a.
Proof. induction a as [|c a IH]; [reflexivity|]. cbn. f_equal. exact IH. Qed.
Lemma append_assoc a b c : String.append (String.append a b) c = String.append a (String.append b c).
Proof. induction a as [|x a IH]; [reflexivity|]. cbn. f_equal. exact IH. Qed.
Lemma split_free c : forall s, free c s -> split c s = [s].
Proof. induction s as [|d s IH]; intros F; [reflexivity|]. cbn [split]. destruct (Ascii.eqb_spec c d) as [->|N]; [exfalso; apply F; left; reflexivity|]. rewrite IH; [reflexivity|]. intros Z. apply F. right. exact Z. Qed.
Lemma split_app c : forall a b, free c a -> split c (String.append a (String c b)) = a :: split c b.
Proof. induction a as [|d a IH]; intros b F; cbn [String.append split]; [rewrite Ascii.eqb_refl; reflexivity|]. destruct (Ascii.eqb_spec c d) as [->|N]; [exfalso; apply F; left; reflexivity|]. rewrite IH; [reflexivity|]. intros Z. apply F. right. exact Z. Qed.
Lemma join_cons sep a b l : join sep (a :: b :: l) = String.append a (String.append sep (join sep (b :: l))).
Proof. reflexivity. Qed.
Lemma split_join c : forall l, l <> [] -> Forall (free c) l -> split c (join (String c "") l) = l.
Proof.
  induction l as [|a l IH]; intros N F; [congruence|]. inversion F as [|? ? F1 F2]; subst. destruct l as [|b l]; [cbn; apply split_free; exact F1|]. rewrite join_cons. cbn [String.append]. rewrite split_app by exact F1. rewrite IH; [reflexivity|discriminate|exact F2].
Qed.
Lemma split_parts c : forall s w, In w (split c s) -> free c w.
Proof.
  induction s as [|d s IH]; intros w; cbn [split]; [intros [<-|[]] []|]. destruct (Ascii.eqb_spec c d) as [->|N]; [intros [<-|H]; [intros []|exact (IH w H)]|]. destruct (split c s) as [|v vs] eqn:Q; [intros [<-|[]] [Z|[]]; congruence|]. intros [<-|H]; [intros [Z|Z]; [congruence|exact (IH v (or_introl eq_refl) Z)]|exact (IH w (or_intror H))].
Qed.

Lemma split_nonempty c : forall s, split c s <> [].
Proof. destruct s as [|d s]; cbn [split]; [discriminate|]. destruct (Ascii.eqb c d); [discriminate|]. destruct (split c s); discriminate. Qed.

(** ** The order of texts *)
Lemma sltb_irrefl : forall a, sltb a a = false.
Proof. induction a as [|x a IH]; [reflexivity|]. cbn [sltb]. rewrite Nat.ltb_irrefl, Nat.eqb_refl. exact IH. Qed.
Lemma sltb_trans : forall a b c, sltb a b = true -> sltb b c = true -> sltb a c = true.
Proof.
  induction a as [|x a IH]; intros [|y b] [|z c]; cbn [sltb]; try discriminate; try reflexivity. rewrite !orb_true_iff, !andb_true_iff, !Nat.ltb_lt, !Nat.eqb_eq. intros [H1|[H1 H2]] [H3|[H3 H4]]; [left; lia|left; lia|left; lia|right; split; [lia|exact (IH b c H2 H4)]].
Qed.
Lemma sltb_total : forall a b, sltb a b = false -> a <> b -> sltb b a = true.
Proof.
  induction a as [|x a IH]; intros [|y b]; cbn [sltb]; try discriminate; try congruence; try reflexivity. rewrite !orb_false_iff, !orb_true_iff, !andb_true_iff, andb_false_iff, !Nat.ltb_lt, !Nat.ltb_ge, !Nat.eqb_eq, Nat.eqb_neq. intros [H1 H2] N. destruct (Nat.eq_dec (nat_of_ascii x) (nat_of_ascii y)) as [E|E]; [|left; lia]. right. split; [congruence|]. destruct H2 as [H2|H2]; [contradiction|]. apply IH; [exact H2|]. intros ->. apply N. f_equal. rewrite <- (ascii_nat_embedding x), E. apply ascii_nat_embedding.
Qed.
Lemma insert_in x : forall l y, In y (insert x l) <-> y = x \/ In y l.
Proof. induction l as [|z l IH]; intros y; cbn [insert]; [cbn; intuition congruence|]. destruct (String.eqb_spec x z) as [->|N]; [cbn; intuition congruence|]. destruct (sltb x z); cbn [In]; [|rewrite IH]; intuition congruence. Qed.
Lemma insert_sorted x : forall l, StronglySorted (fun a b => sltb a b = true) l -> StronglySorted (fun a b => sltb a b = true) (insert x l).
Proof.
  induction l as [|z l IH]; intros S1; cbn [insert]; [constructor; constructor|]. inversion S1 as [|? ? S2 S3]; subst. destruct (String.eqb_spec x z) as [->|N]; [exact S1|]. destruct (sltb x z) eqn:L.
  - constructor; [exact S1|]. constructor; [exact L|]. rewrite Forall_forall in *. intros y Iy. exact (sltb_trans _ _ _ L (S3 y Iy)).
  - constructor; [apply IH; exact S2|]. rewrite Forall_forall in *. intros y Iy. apply insert_in in Iy. destruct Iy as [->|Iy]; [exact (sltb_total _ _ L N)|exact (S3 y Iy)].
Qed.
(** the legal operations are passed on once each, in the same order whatever the order given *)
Theorem C129_sorted_set l : StronglySorted (fun a b => sltb a b = true) (sorted_set l) /\ forall x, In x (sorted_set l) <-> In x l.
Proof. induction l as [|a l [IH1 IH2]]; [split; [constructor|reflexivity]|]. cbn [sorted_set fold_right]. split; [apply insert_sorted; exact IH1|]. intros x. rewrite insert_in. unfold sorted_set in IH2. rewrite IH2. cbn. intuition congruence. Qed.
Theorem C129_order a b c : (sltb a b = true -> sltb b c = true -> sltb a c = true) /\ sltb a a = false /\ (a <> b -> sltb a b = true \/ sltb b a = true).
Proof. split; [apply sltb_trans|]. split; [apply sltb_irrefl|]. intros N. destruct (sltb a b) eqn:L; [left; reflexivity|right; exact (sltb_total _ _ L N)]. Qed.

(** ** The options of pipelines: what the parser of pass options sees *)
(** fields end at spaces; the first = of a field ends its key *)
Definition field (f : string) : string * string := match split "=" f with k :: v => (k, join "=" v) | [] => (f, "") end.
Definition fields (body : string) : list (string * string) := map field (filter (fun f => negb (f =? "")%string) (split " " body)).
Lemma join_split c : forall s, join (String c "") (split c s) = s.
Proof.
  induction s as [|d s IH]; [reflexivity|]. cbn [split]. assert (NE : split c s <> []) by (destruct s as [|e s0]; cbn; [discriminate|]; destruct (Ascii.eqb c e); [discriminate|]; destruct (split c s0); discriminate). destruct (Ascii.eqb_spec c d) as [->|N].
  - destruct (split d s) as [|w ws] eqn:Q; [congruence|]. rewrite join_cons. cbn [String.append]. rewrite IH. reflexivity.
  - destruct (split c s) as [|w ws] eqn:Q; [congruence|]. destruct ws as [|v ws]; [cbn in *; congruence|]. rewrite join_cons in *. rewrite <- IH. reflexivity.
Qed.
Lemma field_key k v : free "=" k -> field (String.append k (String "=" v)) = (k, v).
Proof. intros F. unfold field. rewrite split_app by exact F. rewrite (join_split "=" v). reflexivity. Qed.
Definition clean (s : string) : Prop := free " " s.
Lemma join_clean : forall l, Forall clean l -> clean (join "," l).
Proof. induction l as [|a l IH]; intros F; [intros []|]. inversion F as [|? ? F1 F2]; subst. destruct l as [|b l]; [exact F1|]. rewrite join_cons. unfold clean, free. rewrite !letters_app. intros Z. apply in_app_or in Z. destruct Z as [Z|Z]; [exact (F1 Z)|]. apply in_app_or in Z. destruct Z as [[Z|[]]|Z]; [discriminate|exact (IH F2 Z)]. Qed.
Ltac closed := let Z := fresh in intros Z; cbn in Z; repeat (destruct Z as [Z|Z]; [discriminate|]); exact Z.
Lemma two_fields ops lib : clean ops -> clean lib -> fields (String.append "backend-legal-ops=" (String.append ops (String.append " extra-library=" lib))) = [("backend-legal-ops", ops); ("extra-library", lib)].
Proof.
  intros C1 C2. unfold fields. replace (String.append "backend-legal-ops=" (String.append ops (String.append " extra-library=" lib))) with (String.append (String.append "backend-legal-ops=" ops) (String " " (String.append "extra-library=" lib))) by (rewrite append_assoc; reflexivity).
  rewrite split_app by (unfold free; rewrite letters_app; intros Z; apply in_app_or in Z; destruct Z as [Z|Z]; [revert Z; closed|exact (C1 Z)]). rewrite split_free by (unfold free; rewrite letters_app; intros Z; apply in_app_or in Z; destruct Z as [Z|Z]; [revert Z; closed|exact (C2 Z)]).
  cbn [filter]. replace (String.append "backend-legal-ops=" ops =? "")%string with false by reflexivity. replace (String.append "extra-library=" lib =? "")%string with false by reflexivity. cbn [negb map]. f_equal; [exact (field_key "backend-legal-ops" ops ltac:(closed))|]. f_equal. exact (field_key "extra-library" lib ltac:(closed)).
Qed.
Theorem C129_ts_options ops lib : Forall clean ops -> Forall (free ",") ops -> clean lib ->
  exists body, ts_options ops lib = String.append "{" (String.append body "}") /\ fields body = [("backend-legal-ops", join "," ops); ("extra-library", lib)] /\ (ops <> [] -> split "," (join "," ops) = ops).
Proof.
  intros C1 C2 C3. exists (String.append "backend-legal-ops=" (String.append (join "," ops) (String.append " extra-library=" lib))). split; [|split; [apply two_fields; [apply join_clean; exact C1|exact C3]|intros N; exact (split_join "," ops N C2)]].
  unfold ts_options. rewrite !append_assoc. reflexivity.
Qed.
Theorem C129_fx_options legal lib : Forall clean (or_default legal []) -> Forall (free ",") (or_default legal []) -> clean (or_default lib "") ->
  exists body, fx_options legal lib = String.append "{" (String.append body "}") /\
  (or_default legal [] = [] -> fields body = [("extra-library", or_default lib "")]) /\
  (or_default legal [] <> [] -> exists ops, fields body = [("backend-legal-ops", ops); ("extra-library", or_default lib "")] /\ split "," ops = or_default legal []).
Proof.
  intros C1 C2 C3. unfold fx_options. assert (E : forall l, (legal = None \/ legal = Some l) -> l = [] -> exists body, String.append "{" (String.append "" (String.append " extra-library=" (String.append (or_default lib "") "}"))) = String.append "{" (String.append body "}") /\ fields body = [("extra-library", or_default lib "")]).
  { intros _ _ _. exists (String.append " extra-library=" (or_default lib "")). split; [cbn [String.append]; reflexivity|]. unfold fields. change (String.append " extra-library=" (or_default lib "")) with (String.append "" (String " " (String.append "extra-library=" (or_default lib "")))). rewrite split_app by (intros []). rewrite split_free by (unfold free; rewrite letters_app; intros Z; apply in_app_or in Z; destruct Z as [Z|Z]; [revert Z; closed|exact (C3 Z)]).
    cbn [filter]. replace (String.append "extra-library=" (or_default lib "") =? "")%string with false by reflexivity. cbn. f_equal. exact (field_key "extra-library" (or_default lib "") ltac:(closed)). }
  destruct legal as [[|o l]|]; cbn [or_default] in *.
  - destruct (E [] (or_intror eq_refl) eq_refl) as (body & E1 & E2). exists body. split; [exact E1|]. split; [intros _; exact E2|congruence].
  - exists (String.append "backend-legal-ops=" (String.append (join "," (o :: l)) (String.append " extra-library=" (or_default lib "")))). split; [rewrite !append_assoc; reflexivity|]. split; [discriminate|]. intros _. exists (join "," (o :: l)). split; [apply two_fields; [apply join_clean; exact C1|exact C3]|exact (split_join "," (o :: l) ltac:(discriminate) C2)].
  - destruct (E [] (or_introl eq_refl) eq_refl) as (body & E1 & E2). exists body. split; [exact E1|]. split; [intros _; exact E2|congruence].
Qed.
Lemma append_char_inj c : forall a b, String.append a (String c "") = String.append b (String c "") -> a = b.
Proof. induction a as [|x a IH]; intros [|y b] H; cbn [String.append] in H; [reflexivity|injection H as _ H; destruct b; discriminate|injection H as _ H; destruct a; discriminate|injection H as -> H; f_equal; exact (IH b H)]. Qed.
(** a library in a directory with a space in its name is cut at the space *)
Theorem C129_space_refuted : ~ forall lib, exists body, ts_options [] lib = String.append "{" (String.append body "}") /\ In ("extra-library", lib) (fields body).
Proof.
  intros H. destruct (H "/a b/l.mlir") as (body & Q & I1). assert (B : body = "backend-legal-ops= extra-library=/a b/l.mlir") by (apply (append_char_inj "}"); cbn [String.append] in Q; injection Q as Q; rewrite <- Q; reflexivity).
  subst body. vm_compute in I1. repeat (destruct I1 as [I1|I1]; [discriminate|]). destruct I1.
Qed.

(** ** The pipelines *)
Theorem C129_raw legal lib allow : module_lowering RunModel.RAW legal lib allow = Some [] /\ ts_lowering RunModel.RAW legal (or_default lib "") = Some [].
Proof. split; reflexivity. Qed.
(** otherwise the program is first brought to the backend contract with the options, then lowered to the wanted form *)
Theorem C129_lowering t legal lib allow : t <> RunModel.RAW ->
  exists ps, RunModel.lower_mlir_module t allow = Some ps /\
  module_lowering t legal lib allow = Some (String.append "builtin.module(func.func(torch-match-quantized-custom-ops), torchdynamo-export-to-torch-backend-pipeline" (String.append (fx_options legal lib) ")") :: ps) /\
  exists qs, RunModel.lower_mlir_module t true = Some qs /\ ts_lowering t legal (or_default lib "") = Some (String.append "builtin.module(torchscript-module-to-torch-backend-pipeline" (String.append (ts_options (sorted_set (or_default legal [])) (or_default lib "")) ")") :: qs).
Proof. intros N. destruct t; try congruence; eexists; (split; [reflexivity|]); (split; [reflexivity|]); eexists; (split; [reflexivity|]); destruct legal; reflexivity. Qed.
(** the dynamo configuration refuses legal operations for a backend, and has no raw form *)
Theorem C129_dynamo t legal lib : dynamo_lowering t legal lib <> None <-> t <> RunModel.RAW /\ (legal = None \/ t = RunModel.TORCH).
Proof. unfold dynamo_lowering. destruct legal as [l|]; destruct t; cbn; split; try congruence; try (intros (H & [Z|Z]); congruence); intros _; split; try discriminate; auto. Qed.
Theorem C129_dynamo_pipelines t legal lib ps : dynamo_lowering t legal lib = Some ps -> exists qs, RunModel.lower_mlir_module t true = Some qs /\ ps = "builtin.module(torch-lower-to-backend-contract)" :: qs.
Proof. unfold dynamo_lowering. destruct (match legal with Some _ => is_torch t | None => true end); [|discriminate]. destruct t; cbn; intros H; try discriminate; injection H as <-; eexists; (split; reflexivity). Qed.
(** but where it takes them it ignores them, and the library too *)
Theorem C129_dynamo_ignores_refuted : ~ forall t l1 l2 lib1 lib2 ps, dynamo_lowering t (Some l1) lib1 = Some ps -> dynamo_lowering t (Some l2) lib2 = Some ps -> (forall x, In x l1 <-> In x l2) /\ lib1 = lib2.
Proof. intros H. destruct (H RunModel.TORCH ["aten.linear"] [] "a" "b" _ eq_refl eq_refl) as [Z _]. exact (proj1 (Z "aten.linear") (or_introl eq_refl)). Qed.
Theorem C129_dynamo_always t l1 l2 lib1 lib2 : dynamo_lowering t (Some l1) lib1 = dynamo_lowering t (Some l2) lib2.
Proof. reflexivity. Qed.

(** ** export_and_import *)
Lemma or_iff (A B C D : Prop) : (A <-> C) -> (B <-> D) -> (A \/ B <-> C \/ D).
Proof. tauto. Qed.
Section Fx.
Context (at_least_2_2 before_2_3_dev : string -> bool) (default_table : list string) (torch_version : string).
Definition imports (s : step) : bool := match s with ImportProgram | ImportFrozen | ImportStateless => true | _ => false end.
(** It imports once, after any export and decomposition and before any pipeline; mutable programs are imported as they are only when asked *)
Theorem C129_export_and_import a steps ok : export_and_import at_least_2_2 before_2_3_dev default_table torch_version a = (steps, ok) ->
  exists pre post, steps = pre ++ (if mutation a then ImportProgram else ImportFrozen) :: map Pipeline post /\ forallb (fun s => negb (imports s)) pre = true /\ (forall p, ~ In (Pipeline p) pre) /\
  (In Warn pre <-> mutation a = true /\ before_2_3_dev torch_version = true) /\
  (forall d, In (Export d) pre <-> is_program a = false /\ d = at_least_2_2 torch_version) /\
  (forall t, In (Decompose t) pre <-> t <> [] /\ (table a = Some t \/ table a = None /\ t = default_table)) /\
  (In PrintGraph pre <-> print_graph a = true) /\
  (ok = true <-> exists t, RunModel.output_type_get (fx_output a) = Some t) /\
  (forall t, RunModel.output_type_get (fx_output a) = Some t -> module_lowering t (fx_legal a) None (allow a) = Some post) /\ (ok = false -> post = []).
Proof.
  intros H. unfold export_and_import in H.
  set (pre := (if is_program a then [] else [Export (at_least_2_2 torch_version)]) ++ match or_default (table a) default_table with [] => [] | t => [Decompose t] end ++ (if print_graph a then [PrintGraph] else []) ++ (if mutation a then (if before_2_3_dev torch_version then [Warn] else []) else [])).
  assert (Hs : forall l, ((if is_program a then [] else [Export (at_least_2_2 torch_version)]) ++ match or_default (table a) default_table with [] => [] | t => [Decompose t] end ++ (if print_graph a then [PrintGraph] else []) ++ (if mutation a then (if before_2_3_dev torch_version then [Warn] else []) ++ [ImportProgram] else [ImportFrozen])) ++ l = pre ++ (if mutation a then ImportProgram else ImportFrozen) :: l).
  { intros l. unfold pre. destruct (mutation a); rewrite <- !app_assoc; reflexivity. }
  assert (Hp : forall s, In s pre <-> (is_program a = false /\ s = Export (at_least_2_2 torch_version)) \/ (exists t, t <> [] /\ t = or_default (table a) default_table /\ s = Decompose t) \/ (print_graph a = true /\ s = PrintGraph) \/ (mutation a = true /\ before_2_3_dev torch_version = true /\ s = Warn)).
  { intros s. unfold pre. rewrite !in_app_iff. apply or_iff; [destruct (is_program a); cbn; intuition congruence|]. apply or_iff; [destruct (or_default (table a) default_table) as [|x l]; cbn; [split; [intros []|intros (t & N & E1 & _); congruence]|split; [intros [<-|[]]; exists (x :: l); repeat split; discriminate|intros (t & _ & -> & ->); left; reflexivity]]|]. apply or_iff; [destruct (print_graph a); cbn; intuition congruence|]. destruct (mutation a); [destruct (before_2_3_dev torch_version)|]; cbn; intuition congruence. }
  assert (Common : forall post, (ok = true <-> exists t, RunModel.output_type_get (fx_output a) = Some t) -> (forall t, RunModel.output_type_get (fx_output a) = Some t -> module_lowering t (fx_legal a) None (allow a) = Some post) -> (ok = false -> post = []) -> steps = pre ++ (if mutation a then ImportProgram else ImportFrozen) :: map Pipeline post -> exists pre post, steps = pre ++ (if mutation a then ImportProgram else ImportFrozen) :: map Pipeline post /\ forallb (fun s => negb (imports s)) pre = true /\ (forall p, ~ In (Pipeline p) pre) /\ (In Warn pre <-> mutation a = true /\ before_2_3_dev torch_version = true) /\ (forall d, In (Export d) pre <-> is_program a = false /\ d = at_least_2_2 torch_version) /\ (forall t, In (Decompose t) pre <-> t <> [] /\ (table a = Some t \/ table a = None /\ t = default_table)) /\ (In PrintGraph pre <-> print_graph a = true) /\ (ok = true <-> exists t, RunModel.output_type_get (fx_output a) = Some t) /\ (forall t, RunModel.output_type_get (fx_output a) = Some t -> module_lowering t (fx_legal a) None (allow a) = Some post) /\ (ok = false -> post = [])).
  { intros post O1 O2 O3 E. exists pre, post. split; [exact E|]. split; [apply forallb_forall; intros s Is; apply Hp in Is; destruct Is as [(_ & ->)|[(t & _ & _ & ->)|[(_ & ->)|(_ & _ & ->)]]]; reflexivity|]. split; [intros p Is; apply Hp in Is; destruct Is as [(_ & Z)|[(t & _ & _ & Z)|[(_ & Z)|(_ & _ & Z)]]]; discriminate|].
    split; [rewrite Hp; split; [intros [(_ & Z)|[(t & _ & _ & Z)|[(_ & Z)|(Z1 & Z2 & _)]]]; try discriminate; auto|intros (Z1 & Z2); right; right; right; auto]|].
    split; [intros d; rewrite Hp; split; [intros [(Z1 & Z)|[(t & _ & _ & Z)|[(_ & Z)|(_ & _ & Z)]]]; try discriminate; injection Z as ->; auto|intros (Z1 & ->); left; auto]|].
    split; [intros t; rewrite Hp; split; [intros [(_ & Z)|[(t' & Z1 & Z2 & Z)|[(_ & Z)|(_ & _ & Z)]]]; try discriminate; injection Z as ->; split; [exact Z1|]; destruct (table a); cbn in Z2; subst; auto|intros (Z1 & Z2); right; left; exists t; split; [exact Z1|]; split; [destruct Z2 as [->|[-> ->]]; reflexivity|reflexivity]]|].
    split; [rewrite Hp; split; [intros [(_ & Z)|[(t & _ & _ & Z)|[(Z & _)|(_ & _ & Z)]]]; try discriminate; exact Z|intros Z; right; right; left; auto]|]. auto. }
  destruct (RunModel.output_type_get (fx_output a)) as [t|] eqn:Ot; cbn [obind] in H.
  - assert (M : exists ps, module_lowering t (fx_legal a) None (allow a) = Some ps) by (destruct t; eexists; reflexivity). destruct M as (ps & M). rewrite M in H. injection H as <- <-. apply (Common ps); [split; [intros _; exists t; reflexivity|reflexivity]|intros t' [= <-]; exact M|discriminate|apply Hs].
  - injection H as <- <-. apply (Common []); [split; [discriminate|intros (t & Z); discriminate]|intros t Z; discriminate|reflexivity|rewrite <- Hs, app_nil_r; reflexivity].
Qed.
Theorem C129_stateless a steps ok : stateless_fx_import a = (steps, ok) ->
  exists post, steps = (if print_graph a then [PrintGraph] else []) ++ ImportStateless :: map Pipeline post /\ (ok = true <-> exists t, RunModel.output_type_get (fx_output a) = Some t /\ module_lowering t (fx_legal a) None (allow a) = Some post) /\ (ok = false -> post = []).
Proof.
  unfold stateless_fx_import. intros H. destruct (RunModel.output_type_get (fx_output a)) as [t|] eqn:Ot; cbn [obind] in H.
  - assert (M : exists ps, module_lowering t (fx_legal a) None (allow a) = Some ps) by (destruct t; eexists; reflexivity). destruct M as (ps & M). rewrite M in H. injection H as <- <-. exists ps. split; [rewrite <- app_assoc; reflexivity|]. split; [split; [intros _; exists t; auto|reflexivity]|discriminate].
  - injection H as <- <-. exists []. split; [reflexivity|]. split; [split; [discriminate|intros (t & Z & _); discriminate]|reflexivity].
Qed.
End Fx.

(** ** Graphs of the dynamo configuration *)
(** additions and multiplications of a tensor and something that is no node become those with a scalar; nothing else changes *)
Theorem C129_scalarize g : List.length (scalarize g) = List.length g /\ forall i n, nth_error g i = Some n -> exists n', nth_error (scalarize g) i = Some n' /\ args n' = args n /\ no_kwargs n' = no_kwargs n /\
  ((exists x y, args n = [x; y] /\ (forall k, y <> ANode k) /\ no_kwargs n = true /\ (op n = CallFunction "aten.add.Tensor" /\ op n' = CallFunction "aten.add.Scalar" \/ op n = CallFunction "aten.mul.Tensor" /\ op n' = CallFunction "aten.mul.Scalar")) \/
   (op n' = op n /\ ((op n <> CallFunction "aten.add.Tensor" /\ op n <> CallFunction "aten.mul.Tensor") \/ List.length (args n) <> 2 \/ no_kwargs n = false \/ exists x k, args n = [x; ANode k]))).
Proof.
  split; [apply map_length|]. intros i n Hi. exists (scalarize_node n). split; [unfold scalarize; rewrite nth_error_map, Hi; reflexivity|]. destruct n as [o as_ kw]. unfold scalarize_node, scalar_second. cbn [op args no_kwargs].
  destruct o as [t| |]; try (split; [reflexivity|]; split; [reflexivity|]; right; split; [reflexivity|]; left; split; discriminate).
  destruct as_ as [|x [|y [|z r]]]; [| | |destruct y]; try (split; [reflexivity|]; split; [reflexivity|]; right; split; [reflexivity|]; right; left; cbn; lia).
  destruct y as [k| |]; cbn [op args no_kwargs]; [split; [reflexivity|]; split; [reflexivity|]; right; split; [reflexivity|]; right; right; right; exists x, k; reflexivity| |];
  (destruct kw; [|split; [reflexivity|]; split; [reflexivity|]; right; split; [reflexivity|]; right; right; left; reflexivity]);
  (destruct (String.eqb_spec t "aten.add.Tensor") as [->|N1]; [split; [reflexivity|]; split; [reflexivity|]; left; eexists x, _; split; [reflexivity|]; split; [discriminate|]; auto|]);
  (destruct (String.eqb_spec t "aten.mul.Tensor") as [->|N2]; [split; [reflexivity|]; split; [reflexivity|]; left; eexists x, _; split; [reflexivity|]; split; [discriminate|]; auto|]);
  (split; [reflexivity|]; split; [reflexivity|]; right; split; [reflexivity|]; left; split; congruence).
Qed.
(** a graph counts as returning nothing when each of its outputs is the empty tuple *)
Theorem C129_empty_tuple g : Forall (fun n => op n = Output -> List.length (args n) = 1) g -> exists b, returns_empty_tuple g = Some b /\ (b = true <-> forall n, In n g -> op n = Output -> args n = [AEmpty]).
Proof.
  induction g as [|n g IH]; intros F; [exists true; split; [reflexivity|]; split; [intros _ n []|reflexivity]|]. inversion F as [|? ? F1 F2]; subst. destruct (IH F2) as (b & E & Hb). cbn [returns_empty_tuple]. destruct (op n) as [t| |] eqn:On.
  - exists b. split; [exact E|]. rewrite Hb. split; [intros H m [<-|Im] Om; [congruence|exact (H m Im Om)]|intros H m Im; exact (H m (or_intror Im))].
  - specialize (F1 eq_refl). destruct (args n) as [|x [|y r]] eqn:An; try discriminate. destruct x as [k| |].
    + exists false. split; [reflexivity|]. split; [discriminate|]. intros H. specialize (H n (or_introl eq_refl) On). congruence.
    + exists false. split; [reflexivity|]. split; [discriminate|]. intros H. specialize (H n (or_introl eq_refl) On). congruence.
    + exists b. split; [exact E|]. rewrite Hb. split; [intros H m [<-|Im] Om; [exact An|exact (H m Im Om)]|intros H m Im; exact (H m (or_intror Im))].
  - exists b. split; [exact E|]. rewrite Hb. split; [intros H m [<-|Im] Om; [congruence|exact (H m Im Om)]|intros H m Im; exact (H m (or_intror Im))].
Qed.
Theorem C129_output_assertion n g : op n = Output -> List.length (args n) <> 1 -> returns_empty_tuple (n :: g) = None.
Proof. intros On L. cbn [returns_empty_tuple]. rewrite On. destruct (args n) as [|x [|y r]]; [reflexivity|cbn in L; lia|destruct x; reflexivity]. Qed.

(** ** Reports of failed pipelines *)
Theorem C129_whitespace c : whitespace c = true <-> In (nat_of_ascii c) [9; 10; 11; 12; 13; 28; 29; 30; 31; 32].
Proof. unfold whitespace. cbv zeta. rewrite !orb_true_iff, !andb_true_iff, !Nat.eqb_eq, !Nat.leb_le. cbn [In]. lia. Qed.
Lemma lstrip_letters : forall s, incl (letters (lstrip s)) (letters s).
Proof. induction s as [|c s IH]; intros x Ix; [exact Ix|]. cbn [lstrip] in Ix. destruct (whitespace c); [right; exact (IH x Ix)|exact Ix]. Qed.
Lemma lstrip_head : forall s, match lstrip s with String c _ => whitespace c = false | EmptyString => True end.
Proof. induction s as [|c s IH]; [exact Logic.I|]. cbn [lstrip]. destruct (whitespace c) eqn:W; [exact IH|exact W]. Qed.
Lemma lstrip_suffix : forall s, exists p, s = String.append p (lstrip s) /\ forallb whitespace (letters p) = true.
Proof. induction s as [|c s (p & E & W)]; [exists ""; split; reflexivity|]. cbn [lstrip]. destruct (whitespace c) eqn:Wc; [exists (String c p); split; [cbn; f_equal; exact E|cbn; rewrite Wc; exact W]|exists ""; split; reflexivity]. Qed.
(** each line of a message loses the space before it and nothing else *)
Theorem C129_trim m : exists ls, split newline (trim m) = ls /\ Forall2 (fun l l' => (exists p, l = String.append p l' /\ forallb whitespace (letters p) = true) /\ match l' with String c _ => whitespace c = false | EmptyString => True end) (split newline m) ls.
Proof.
  exists (map lstrip (split newline m)). split.
  - unfold trim. apply split_join; [intros Z; apply map_eq_nil in Z; exact (split_nonempty _ _ Z)|]. apply Forall_forall. intros w Iw. apply in_map_iff in Iw. destruct Iw as (v & <- & Iv). intros Z. exact (split_parts _ _ _ Iv (lstrip_letters v _ Z)).
  - induction (split newline m) as [|l ls IH]; cbn [map]; [constructor|]. constructor; [split; [apply lstrip_suffix|apply lstrip_head]|exact IH].
Qed.
(** a pipeline that runs is not reported; one that fails is reported with the module as it was, the file it is in and how to run it again; stderr is always put back *)
Theorem C129_report_partial tempdir name text run pipeline description err :
  let o := run_pipeline tempdir name (Some text) run pipeline description err in
  stderr o = err /\ (reported o = Ran <-> run pipeline = None) /\
  forall diagnostics exception, run pipeline = Some (diagnostics, exception) -> exists d, (description <> "" -> d = description) /\ (description = "" -> d = String.append (or_default name "UnnammedModule") " compile") /\
  let file := String.append tempdir (String.append "/" (String.append (or_default name "UnnammedModule") ".mlir")) in reported o = CompilerError file text (trim (message d diagnostics exception pipeline file)).
Proof.
  unfold run_pipeline. cbv zeta. destruct (run pipeline) as [[dg ex]|] eqn:R; cbn [stderr reported].
  - split; [reflexivity|]. split; [split; discriminate|]. intros dg' ex' [= <- <-]. exists (if (description =? "")%string then String.append (or_default name "UnnammedModule") " compile" else description). split; [intros N; destruct (String.eqb_spec description ""); [contradiction|reflexivity]|]. split; [intros ->; reflexivity|reflexivity].
  - split; [reflexivity|]. split; [split; reflexivity|discriminate].
Qed.
(** a module that cannot be printed is not reported at all: the handler itself fails *)
Theorem C129_report_refuted : ~ forall tempdir name asm run pipeline description err, reported (run_pipeline tempdir name asm run pipeline description err) = Ran \/ exists file text m, reported (run_pipeline tempdir name asm run pipeline description err) = CompilerError file text m.
Proof. intros H. destruct (H "/tmp" None None (fun _ => None) "" "" 0) as [Z|(f & t & m & Z)]; vm_compute in Z; discriminate. Qed.
Theorem C129_report_stderr tempdir name asm run pipeline description err : stderr (run_pipeline tempdir name asm run pipeline description err) = err.
Proof. unfold run_pipeline. destruct asm; [|reflexivity]. destruct (run pipeline) as [[d e]|]; reflexivity. Qed.
(** the command to run the pipeline again is a line of the report *)
Theorem C129_message d diagnostics exception pipeline file : Forall (free newline) [d; diagnostics; exception; pipeline; file] ->
  split newline (trim (message d diagnostics exception pipeline file)) =
  [lstrip (String.append d " failed with the following diagnostics:"); lstrip diagnostics; ""; String.append "python exception: " exception; ""; "For Torch-MLIR developers, the error can be reproduced with:";
   String.append "$ torch-mlir-opt -pass-pipeline='" (String.append pipeline (String.append "' " file)); "Add '-mlir-print-ir-after-all -mlir-disable-threading' to get the IR dump for debugging purpose."; ""].
Proof.
  intros F. inversion F as [|? ? F1 F']; subst. inversion F' as [|? ? F2 F'']; subst. inversion F'' as [|? ? F3 F3']; subst. inversion F3' as [|? ? F4 F4']; subst. inversion F4' as [|? ? F5 _]; subst.
  assert (Ln : forall s r, free newline s -> split newline (String.append (line s) r) = String.append "            " s :: split newline r).
  { intros s r Fs. transitivity (split newline (String.append (String.append "            " s) (String newline r))); [unfold line; rewrite !append_assoc; reflexivity|]. apply split_app. unfold free. rewrite letters_app. intros Z. apply in_app_or in Z. destruct Z as [Z|Z]; [revert Z; closed|exact (Fs Z)]. }
  assert (Nl : forall r, split newline (String.append (String newline "") r) = "" :: split newline r) by reflexivity.
  assert (Fa : forall a b, free newline a -> free newline b -> free newline (String.append a b)) by (intros a b A1 A2; unfold free; rewrite letters_app; intros Z; apply in_app_or in Z; destruct Z; [exact (A1 H)|exact (A2 H)]).
  assert (Em : forall a b l, String.concat "" (a :: b :: l) = String.append a (String.concat "" (b :: l))) by reflexivity.
  assert (Sp : split newline (message d diagnostics exception pipeline file) = [String.append "            " (String.append d " failed with the following diagnostics:"); String.append "            " diagnostics; ""; String.append "            " (String.append "python exception: " exception); ""; "            For Torch-MLIR developers, the error can be reproduced with:"; String.append "            " (String.append "$ torch-mlir-opt -pass-pipeline='" (String.append pipeline (String.append "' " file))); "            Add '-mlir-print-ir-after-all -mlir-disable-threading' to get the IR dump for debugging purpose."; "            "]).
  { unfold message. rewrite !Em. rewrite Ln by (apply Fa; [exact F1|closed]). rewrite Ln by exact F2. rewrite Nl. rewrite Ln by (apply Fa; [closed|exact F3]). rewrite Nl. rewrite Ln by closed. rewrite Ln by (apply Fa; [closed|]; apply Fa; [exact F4|]; apply Fa; [closed|exact F5]). rewrite Ln by closed. reflexivity. }
  unfold trim. rewrite Sp. rewrite split_join; [|discriminate|].
  - cbn [map]. assert (Ls : forall s, lstrip (String.append "            " s) = lstrip s) by reflexivity. rewrite !Ls. reflexivity.
  - apply Forall_forall. intros w Iw. apply in_map_iff in Iw. destruct Iw as (v & <- & Iv). rewrite <- Sp in Iv. intros Z. exact (split_parts _ _ _ Iv (lstrip_letters v _ Z)).
Qed.
Example C129_nonvacuous :
  fx_options (Some ["aten.a"; "aten.b"]) None = "{backend-legal-ops=aten.a,aten.b extra-library=}" /\ fx_options None (Some "l.mlir") = "{ extra-library=l.mlir}" /\
  sorted_set ["b"; "a"; "b"; "ab"] = ["a"; "ab"; "b"] /\
  export_and_import (fun _ => true) (fun _ => false) ["t"] "2.6.0" {| is_program := false; fx_output := inl "torch"; table := None; mutation := true; print_graph := false; fx_legal := None; allow := true |} =
    ([Export true; Decompose ["t"]; ImportProgram; Pipeline "builtin.module(func.func(torch-match-quantized-custom-ops), torchdynamo-export-to-torch-backend-pipeline{ extra-library=})"], true) /\
  returns_empty_tuple [{| op := Output; args := [AEmpty]; no_kwargs := true |}] = Some true /\
  map op (scalarize [{| op := CallFunction "aten.mul.Tensor"; args := [ANode 0; AConst]; no_kwargs := true |}; {| op := CallFunction "aten.mul.Tensor"; args := [ANode 0; ANode 1]; no_kwargs := true |}]) = [CallFunction "aten.mul.Scalar"; CallFunction "aten.mul.Tensor"] /\
  reported (run_pipeline "/tmp" None (Some "module {}") (fun _ => Some ("bad", "E")) "p" "" 1) <> Ran.
Proof. repeat split; try reflexivity. vm_compute. discriminate. Qed.
Print Assumptions C129_sorted_set.
Print Assumptions C129_order.
Print Assumptions C129_ts_options.
Print Assumptions C129_fx_options.
Print Assumptions C129_space_refuted.
Print Assumptions C129_raw.
Print Assumptions C129_lowering.
Print Assumptions C129_dynamo.
Print Assumptions C129_dynamo_ignores_refuted.
Print Assumptions C129_dynamo_always.
Print Assumptions C129_dynamo_pipelines.
Print Assumptions C129_export_and_import.
Print Assumptions C129_stateless.
Print Assumptions C129_scalarize.
Print Assumptions C129_empty_tuple.
Print Assumptions C129_output_assertion.
Print Assumptions C129_whitespace.
Print Assumptions C129_trim.
Print Assumptions C129_report_partial.
Print Assumptions C129_report_refuted.
Print Assumptions C129_report_stderr.
Print Assumptions C129_message.
