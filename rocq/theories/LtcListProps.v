(** Which operators the lazy tensor backend gets, and when it is generated again (build_tools/autogen_ltc_backend.py). *)
From Coq Require Import Bool Ascii String List Lia.
From Verif Require Import Prelude LtcModel.
Import ListNotations.
Open Scope string_scope.
Open Scope list_scope.

(** * Specification *)
(** The native function [f] is meant by a list of names of operators. *)
Definition listed (l : list string) (f : native) : Prop := In (n_base f) l \/ In (n_name f) l.
(** Names of operators that make a new tensor. *)
Definition creating (o : string) : Prop := exists s, o = ("new_" ++ s)%string \/ o = (s ++ "_like")%string.
(** Neither disabled, nor supported otherwise, nor creating. *)
Definition eligible (c : config) (f : native) : Prop :=
  ~ listed (blacklist c) f /\ ~ listed (c_supported c) f /\ ~ creating (n_base f) /\ ~ creating (n_name f).
(** The operators made of [f]: its functional variants if it changes its operand, and else itself. *)
Definition variant (f : native) (op : string) : Prop :=
  if inplace f then exists o a b, In (op, o) (autogen f) /\ o = (a ++ "functional" ++ b)%string else op = n_name f.

(** * Lemmas *)
Lemma memb_in : forall x l, memb x l = true <-> In x l.
Proof.
  intros x l. unfold memb. rewrite existsb_exists. split; [intros [y [I E]]; apply String.eqb_eq in E; now subst|].
  intros I; exists x; split; auto; apply String.eqb_refl.
Qed.
Lemma starts_spec : forall p s, starts p s = true <-> exists r, s = (p ++ r)%string.
Proof.
  induction p as [|a p IH]; intros s; cbn; [split; eauto|]. destruct s as [|b s]; [split; [discriminate|intros [r [=]]]|].
  rewrite andb_true_iff, Ascii.eqb_eq, IH. split; [intros [-> [r ->]]; eauto|intros [r [= -> ->]]; eauto].
Qed.
Lemma ends_spec : forall p s, ends p s = true <-> exists r, s = (r ++ p)%string.
Proof.
  intros p. induction s as [|b s IH]; cbn; rewrite orb_true_iff, String.eqb_eq.
  - split; [intros [->|[=]]; exists ""; auto|]. intros [[|] E]; cbn in E; [auto|discriminate].
  - rewrite IH. split; [intros [->|[r ->]]; [exists ""|exists (String b r)]; auto|].
    intros [[|d r] E]; cbn in E; [auto|]. injection E as <- ->. eauto.
Qed.
Lemma contains_spec : forall p s, contains p s = true <-> exists a b, s = (a ++ p ++ b)%string.
Proof.
  intros p. induction s as [|b s IH]; cbn [contains]; rewrite orb_true_iff, starts_spec.
  - split; [intros [[r E]|[=]]; exists "", r; auto|]. intros [[|] [r E]]; cbn in E; [eauto|discriminate].
  - rewrite IH. split; [intros [[r E]|[a [r ->]]]; [exists "", r|exists (String b a), r]; auto|].
    intros [[|d a] [r E]]; cbn in E; [eauto|]. injection E as <- ->. eauto.
Qed.
Lemma creates_spec : forall o, creates o = true <-> creating o.
Proof.
  intros o. unfold creates, creating. rewrite orb_true_iff, starts_spec, ends_spec.
  split; [intros [[s ->]|[s ->]]; eauto|intros [s [->| ->]]; eauto].
Qed.
Lemma by_name : forall fs f g, NoDup (map n_name fs) -> In f fs -> In g fs -> n_name f = n_name g -> f = g.
Proof.
  induction fs as [|h fs IH]; cbn; intros f g ND If Ig E; [tauto|]. inversion ND as [|? ? N ND']; subst.
  destruct If as [Hf|If], Ig as [Hg|Ig]; try congruence; auto; exfalso; apply N; subst h; [rewrite E|rewrite <- E]; now apply in_map.
Qed.
Lemma native_spec : forall fs op f, NoDup (map n_name fs) -> (native_of fs op = Some f <-> In f fs /\ n_name f = op).
Proof.
  intros fs op f ND. unfold native_of. split.
  - intros E. apply find_some in E as [I E]. apply String.eqb_eq in E. apply in_rev in I. auto.
  - intros [I E]. destruct (find _ (rev fs)) as [g|] eqn:F.
    + apply find_some in F as [Ig Eg]. apply String.eqb_eq in Eg. apply in_rev in Ig. f_equal.
      apply (by_name fs); auto; congruence.
    + apply find_none with (x := f) in F; [|now apply -> in_rev].
      apply String.eqb_neq in F. congruence.
Qed.
Lemma classify_spec : forall fs c t, NoDup (map n_name fs) ->
  (forall op, In op (fst (classify fs c t)) <-> exists f, In f fs /\ n_name f = t /\ eligible c f /\ composite f = false /\ variant f op) /\
  (forall op, In op (snd (classify fs c t)) <-> op = t /\ exists f, In f fs /\ n_name f = t /\ eligible c f /\ composite f = true).
Proof.
  intros fs c t ND. unfold classify. destruct (native_of fs t) as [f|] eqn:E.
  - apply native_spec in E as [I E]; auto. assert (U : forall g, In g fs -> n_name g = t -> g = f).
    { intros g Ig Eg. assert (A := proj2 (native_spec fs t g ND) (conj Ig Eg)).
      assert (B := proj2 (native_spec fs t f ND) (conj I E)). congruence. }
    assert (B : eligible c f <-> (memb (n_base f) (blacklist c) || memb t (blacklist c)) = false /\
      (memb (n_base f) (c_supported c) || memb t (c_supported c)) = false /\ (creates (n_base f) || creates t) = false).
    { unfold eligible, listed. rewrite !orb_false_iff, <- !not_true_iff_false, !memb_in, !creates_spec, E. tauto. }
    destruct (_ || _) eqn:B1 in |- *;
      [split; intros op; cbn; (split; [tauto|]); [intros [g [Ig [Eg [El _]]]]|intros [_ [g [Ig [Eg [El _]]]]]]; rewrite (U g Ig Eg) in El; apply B in El; rewrite B1 in El; destruct El; discriminate|].
    destruct (memb (n_base f) (c_supported c) || _) eqn:B2;
      [split; intros op; cbn; (split; [tauto|]); [intros [g [Ig [Eg [El _]]]]|intros [_ [g [Ig [Eg [El _]]]]]]; rewrite (U g Ig Eg) in El; apply B in El; destruct El as [_ [El _]]; discriminate|].
    destruct (creates (n_base f) || _) eqn:B3;
      [split; intros op; cbn; (split; [tauto|]); [intros [g [Ig [Eg [El _]]]]|intros [_ [g [Ig [Eg [El _]]]]]]; rewrite (U g Ig Eg) in El; apply B in El; destruct El as [_ [_ El]]; discriminate|].
    assert (El : eligible c f) by (apply B; auto).
    destruct (composite f) eqn:C.
    { split; intros op; cbn.
      - split; [tauto|]. intros [g [Ig [Eg [_ [Cg _]]]]]. rewrite (U g Ig Eg) in Cg. congruence.
      - split; [intros [<-|[]]; split; auto; exists f; auto|intros [-> _]; auto]. }
    destruct (inplace f) eqn:P.
    { split; intros op; cbn; [|split; [tauto|]; intros [_ [g [Ig [Eg [_ Cg]]]]]; rewrite (U g Ig Eg) in Cg; congruence].
      rewrite in_map_iff. split.
      - intros [[o ov] [<- H]]. apply filter_In in H as [H Hc]. apply contains_spec in Hc as [a [b Hc]].
        refine (ex_intro _ f (conj I (conj E (conj El (conj C _))))). unfold variant. rewrite P. cbn in *. eauto.
      - intros [g [Ig [Eg [_ [_ Vg]]]]]. rewrite (U g Ig Eg) in Vg. unfold variant in Vg. rewrite P in Vg.
        destruct Vg as [o [a [b [H Ho]]]]. exists (op, o). split; auto. apply filter_In. split; auto. apply contains_spec. eauto. }
    split; intros op; cbn; [|split; [tauto|]; intros [_ [g [Ig [Eg [_ Cg]]]]]; rewrite (U g Ig Eg) in Cg; congruence].
    split; [intros [<-|[]]; refine (ex_intro _ f (conj I (conj E (conj El (conj C _))))); unfold variant; now rewrite P|].
    intros [g [Ig [Eg [_ [_ Vg]]]]]. rewrite (U g Ig Eg) in Vg. unfold variant in Vg. rewrite P in Vg. left. congruence.
  - assert (N : forall g, In g fs -> n_name g <> t).
    { intros g Ig Eg. assert (A := proj2 (native_spec fs t g ND) (conj Ig Eg)). congruence. }
    split; intros op; cbn; (split; [tauto|]); [intros [g [Ig [Eg _]]]|intros [_ [g [Ig [Eg _]]]]]; exfalso; eapply N; eauto.
Qed.

(** * The lists *)
Section Lists.
Variables (fs : list native) (c : config) (torch_ops : list string).
Hypothesis ND : NoDup (map n_name fs).
(** The operators with full code generation. *)
Theorem C95_generated_operators : forall op, In op (full_codegen (native_lists fs c torch_ops)) <->
  In op (whitelist c) \/
  exists f, In f fs /\ In (n_name f) torch_ops /\ eligible c f /\ composite f = false /\ variant f op.
Proof.
  intros op. unfold native_lists. cbn. rewrite in_app_iff, in_flat_map. split.
  - intros [[t [I H]]|W]; auto. right. apply (classify_spec fs c t ND) in H as [f [If [<- H]]]. exists f. tauto.
  - intros [W|[f [If [It H]]]]; auto. left. exists (n_name f). split; auto. apply (classify_spec fs c _ ND). exists f. tauto.
Qed.
Theorem C95_composite_operators : forall op, In op (composite_implicit (native_lists fs c torch_ops)) <->
  In op torch_ops /\ exists f, In f fs /\ n_name f = op /\ eligible c f /\ composite f = true.
Proof.
  intros op. unfold native_lists. cbn. rewrite in_flat_map. split.
  - intros [t [I H]]. apply (classify_spec fs c t ND) in H as [-> H]. auto.
  - intros [I H]. exists op. split; auto. apply (classify_spec fs c _ ND). auto.
Qed.
Theorem C95_supported_operators : forall op, In op (supported (native_lists fs c torch_ops)) <->
  In op (c_supported c) \/ In op (additional_ops c).
Proof. intros op. cbn. apply in_app_iff. Qed.
(** The others are reported as skipped. *)
Theorem C95_skipped_operators : forall op, In op (skipped (native_lists fs c torch_ops)) <->
  In op torch_ops /\ ~ In op (c_supported c) /\
  ~ (exists f, In f fs /\ n_name f = op /\ eligible c f /\ composite f = true) /\
  ~ (exists f, In f fs /\ In (n_name f) torch_ops /\ eligible c f /\ composite f = false /\ variant f op).
Proof.
  intros op. unfold native_lists. cbn. rewrite filter_In, negb_true_iff, !orb_false_iff, <- !not_true_iff_false, !memb_in.
  assert (C := C95_composite_operators op). cbn in C. assert (G : In op (flat_map (fun op => fst (classify fs c op)) torch_ops) <->
    exists f, In f fs /\ In (n_name f) torch_ops /\ eligible c f /\ composite f = false /\ variant f op).
  { rewrite in_flat_map. split.
    - intros [t [I H]]. apply (classify_spec fs c t ND) in H as [f [If [<- H]]]. exists f. tauto.
    - intros [f [If [It H]]]. exists (n_name f). split; auto. apply (classify_spec fs c _ ND). exists f. tauto. }
  rewrite G, C. tauto.
Qed.
(** Every operator of the dialect is in some list, and the three lists made from them do not overlap if no variant has the name of
    another operator. *)
Theorem C95_every_operator_is_listed : forall op, In op torch_ops ->
  let l := native_lists fs c torch_ops in
  In op (full_codegen l) \/ In op (supported l) \/ In op (composite_implicit l) \/ In op (skipped l).
Proof.
  intros op I l. destruct (in_dec string_dec op (full_codegen l)) as [|A]; auto.
  destruct (in_dec string_dec op (supported l)) as [|B]; auto. destruct (in_dec string_dec op (composite_implicit l)) as [|C]; auto.
  right. right. right. apply C95_skipped_operators. unfold l in *. rewrite C95_generated_operators in A.
  rewrite C95_supported_operators in B. rewrite C95_composite_operators in C. tauto.
Qed.
Theorem C95_lists_do_not_overlap : forall op, let l := native_lists fs c torch_ops in
  (forall f, In f fs -> inplace f = true -> forall o, ~ In (op, o) (autogen f)) ->
  ~ In op (whitelist c) -> ~ In op (c_supported c) ->
  ~ (In op (full_codegen l) /\ In op (composite_implicit l)) /\
  ~ (In op (full_codegen l) /\ In op (skipped l)) /\ ~ (In op (composite_implicit l) /\ In op (skipped l)).
Proof.
  intros op l V W S. unfold l. rewrite C95_generated_operators, C95_composite_operators, C95_skipped_operators.
  split; [|split].
  - intros [[?|[f [If [_ [_ [Cf Vf]]]]]] [_ [g [Ig [Eg [_ Cg]]]]]]; auto. unfold variant in Vf.
    destruct (inplace f) eqn:P; [destruct Vf as [o [_ [_ [A _]]]]; now apply (V f If P o)|]. subst op.
    assert (A := proj2 (native_spec fs _ f ND) (conj If eq_refl)). assert (B := proj2 (native_spec fs _ g ND) (conj Ig Eg)). congruence.
  - intros [[?|H] [_ [_ [_ N]]]]; auto.
  - intros [[_ H] [_ [_ [N _]]]]; auto.
Qed.
(** The generator finds every operator exactly if all are names of native functions. *)
Theorem C95_all_functions_found : forall ops,
  (exists l, functions_to_generate fs ops = Some l) <-> forall op, In op ops -> exists f, In f fs /\ n_name f = op.
Proof.
  intros ops. unfold functions_to_generate. split.
  - intros [l E] op I. destruct (native_of fs op) as [f|] eqn:F; [exists f; now apply native_spec in F|].
    assert (N : mapM (native_of fs) ops = None); [|congruence]. apply mapM_none. eauto.
  - intros H. destruct (mapM (native_of fs) ops) as [l|] eqn:E; eauto. apply mapM_none in E as [op [I F]].
    destruct (H op I) as [f Hf]. apply native_spec in Hf; auto. congruence.
Qed.
Theorem C95_functions_in_order : forall ops l, functions_to_generate fs ops = Some l -> map n_name l = ops /\ forall f, In f l -> In f fs.
Proof.
  intros ops l E. unfold functions_to_generate in E. apply mapM_Forall2 in E. induction E as [|op f ops l F E [IH1 IH2]].
  - split; auto. intros f [].
  - apply native_spec in F as [I <-]; auto. split; [cbn; now rewrite IH1|]. intros g [<-|Ig]; auto.
Qed.
End Lists.

(** An operator that changes its operand is reported as skipped, for lack of a native function, although code is generated for it
    through its functional variant. *)
Theorem C95_generated_and_skipped_refuted : exists fs c torch_ops f, NoDup (map n_name fs) /\ In f fs /\ eligible c f /\
  variant f "add_functional" /\ In "add_functional" (full_codegen (native_lists fs c torch_ops)) /\
  In (n_name f) (skipped (native_lists fs c torch_ops)).
Proof.
  set (f := {| n_name := "add_"; n_base := "add_"; composite := false; inplace := true; autogen := [("add_functional", "functional")] |}).
  set (c := {| blacklist := []; c_supported := []; whitelist := []; additional_ops := [] |}).
  exists [f], c, ["add_"], f. assert (NC : ~ creating "add_"). { rewrite <- creates_spec. cbn. discriminate. }
  repeat split; cbn; auto; try (intros [[]|[]]); try (repeat constructor; cbn; tauto).
  exists "functional", "", "". auto.
Qed.

(** * Shape inference functions *)
(** Placeholders are written for exactly the declared signatures that are neither upstream's nor written by hand. *)
Theorem C95_missing_definitions : forall decls upstream defs l, missing_defs decls upstream defs = Some l ->
  forall s, In s l <-> In s decls /\ ~ In s upstream /\ ~ In s defs.
Proof.
  intros decls upstream defs l E s. unfold missing_defs in E.
  destruct (guard _); [|discriminate]. cbn [obind] in E. destruct (guard _); [|discriminate]. cbn [obind] in E.
  destruct (guard _); [|discriminate]. cbn [obind] in E. injection E as <-.
  rewrite filter_In, andb_true_iff, !negb_true_iff, <- !not_true_iff_false, !memb_in. tauto.
Qed.
Theorem C95_definitions_checked : forall decls upstream defs,
  (exists l, missing_defs decls upstream defs = Some l) <->
  decls <> [] /\ upstream <> [] /\ length (nodup string_dec defs) < length (nodup string_dec decls).
Proof.
  intros decls upstream defs. unfold missing_defs.
  assert (Z : forall l : list string, negb (Nat.eqb (length (nodup string_dec l)) 0) = true <-> l <> []).
  { intros l. rewrite negb_true_iff, PeanoNat.Nat.eqb_neq. destruct l as [|x l]; cbn; [tauto|]. split; [discriminate|intros _].
    destruct (in_dec string_dec x l) as [I|N]; [|discriminate]. intros E. apply (nodup_In string_dec) in I. destruct (nodup string_dec l); [destruct I|discriminate]. }
  rewrite <- (Z decls), <- (Z upstream), <- PeanoNat.Nat.ltb_lt.
  destruct (negb (Nat.eqb (length (nodup string_dec decls)) 0)); cbn [guard obind]; [|split; [intros [? [=]]|intros [[=] _]]].
  destruct (negb (Nat.eqb (length (nodup string_dec upstream)) 0)); cbn [guard obind]; [|split; [intros [? [=]]|intros [_ [[=] _]]]].
  destruct (Nat.ltb _ _); cbn [guard obind]; split; eauto; [intros [? [=]]|intros [_ [_ [=]]]].
Qed.
Theorem C95_unnecessary_definitions : forall decls defs s, In s (unnecessary_defs decls defs) <-> In s defs /\ ~ In s decls.
Proof. intros decls defs s. unfold unnecessary_defs. rewrite filter_In, negb_true_iff, <- not_true_iff_false, memb_in. tauto. Qed.

(** * Generating again *)
Section Again.
Variables (H : Type) (sha256 : string -> H) (eqb : H -> H -> bool) (generate : option string -> option string -> option string -> string -> string).
Hypotheses (eqb_eq : forall a b, eqb a b = true <-> a = b) (collision_free : forall a b, sha256 a = sha256 b -> a = b).
Notation run := (run H sha256 eqb generate).
(** The contents that are hashed. *)
Definition contents (f : files) : string :=
  (text (script f) ++ text (config_path f) ++ text (torch_ops_file f) ++ text (source_yaml f) ++ text (shape_inference f) ++
   text (lazy_ir f) ++ text (lazy_py f) ++ text (model_py f))%string.
Lemma hash_contents : forall f, calculate_hash H sha256 f = sha256 (contents f).
Proof.
  intros f. unfold calculate_hash, contents. cbn. f_equal. repeat f_equal. induction (text (model_py f)) as [|a s IH]; cbn; [auto|now rewrite IH].
Qed.
(** The generator runs exactly if it is forced, has never run, or the files are not those of the last time it ran. *)
Theorem C95_generated_when_changed : forall force f,
  fst (run force (f, None)) = true /\
  forall g, fst (run force (f, Some (calculate_hash H sha256 g))) = true <-> force = true \/ contents f <> contents g.
Proof.
  intros force f. split; [cbn; rewrite orb_true_r; auto|]. intros g. unfold LtcModel.run.
  destruct force; cbn [orb]; [cbn; tauto|]. rewrite !hash_contents.
  destruct (eqb (sha256 (contents f)) (sha256 (contents g))) eqn:E; cbn.
  - apply eqb_eq in E. apply collision_free in E. split; [discriminate|intros [|]; congruence].
  - split; auto. intros _. right. intros C. rewrite C in E. assert (T := proj2 (eqb_eq _ _) (eq_refl (sha256 (contents g)))). congruence.
Qed.
(** A run changes the list of operators and the recorded hash, and nothing else; without generating, nothing. *)
Theorem C95_what_a_run_changes : forall force f h,
  (fst (run force (f, h)) = false -> snd (run force (f, h)) = (f, h)) /\
  (fst (run force (f, h)) = true -> snd (run force (f, h)) = (generated generate f, Some (calculate_hash H sha256 f))).
Proof. intros force f h. unfold LtcModel.run. destruct (_ || _); cbn; split; auto; discriminate. Qed.
(** Nothing is generated by the third of three runs with no changes between them. *)
Theorem C95_stable_after_two_runs : forall st, fst (run false (snd (run false (snd (run false st))))) = false.
Proof.
  assert (Same : forall h, eqb h h = true) by (intros; apply eqb_eq; auto).
  assert (G : forall f, calculate_hash H sha256 (generated generate (generated generate f)) = calculate_hash H sha256 (generated generate f)) by reflexivity.
  assert (K : forall f h, fst (run false (f, Some h)) = negb (eqb (calculate_hash H sha256 f) h)) by (intros; unfold LtcModel.run; cbn [orb]; destruct (negb _); auto).
  assert (S2 : forall f h, snd (run false (f, Some h)) = if eqb (calculate_hash H sha256 f) h then (f, Some h) else (generated generate f, Some (calculate_hash H sha256 f))).
  { intros; unfold LtcModel.run; cbn [orb]; destruct (eqb _ _); auto. }
  assert (Two : forall f h, fst (run false (snd (run false (generated generate f, Some h)))) = false).
  { intros f h. rewrite S2. destruct (eqb (calculate_hash H sha256 (generated generate f)) h) eqn:E; rewrite K.
    - now rewrite E.
    - rewrite G. now rewrite Same. }
  intros [f h]. destruct h as [h|].
  - rewrite S2. destruct (eqb (calculate_hash H sha256 f) h) eqn:E; [|apply Two]. rewrite S2, E, K, E. auto.
  - apply Two.
Qed.
End Again.

(** C95. What is hashed is the contents of the files that exist, in this order; a missing file adds nothing. *)
Theorem C95_hash_contents : forall H (sha256 : string -> H) f,
  calculate_hash H sha256 f = sha256 (String.concat "" (flat_map (fun o : option string => match o with Some c => [c] | None => [] end)
    [script f; config_path f; torch_ops_file f; source_yaml f; shape_inference f; lazy_ir f; lazy_py f; model_py f])).
Proof.
  intros H sha256 f. unfold calculate_hash. f_equal.
  generalize [script f; config_path f; torch_ops_file f; source_yaml f; shape_inference f; lazy_ir f; lazy_py f; model_py f].
  assert (C : forall l, String.concat "" l = fold_right String.append "" l).
  { assert (N : forall a : string, (a ++ "")%string = a) by (induction a as [|c a IH]; cbn; [|rewrite IH]; reflexivity).
    induction l as [|x l IH]; cbn; auto. destruct l as [|y l]; [cbn; now rewrite N|]. now rewrite IH. }
  intros l. rewrite C. induction l as [|[c|] l IH]; cbn; auto. now rewrite IH.
Qed.

(** The first run makes the list of operators, which is hashed before it is made: the second run generates everything again. *)
Theorem C95_second_run_refuted : exists f, let run := run string (fun s => s) String.eqb (fun _ _ _ _ => "full_codegen:") in
  fst (run false (f, None)) = true /\ fst (run false (snd (run false (f, None)))) = true.
Proof.
  exists {| script := Some "a"; config_path := Some "b"; torch_ops_file := Some "c"; source_yaml := None; shape_inference := None; lazy_ir := None;
    lazy_py := None; model_py := None; natives := "" |}. split; reflexivity.
Qed.
(** The native functions are not hashed, although the list of operators is made from them. *)
Theorem C95_native_functions_refuted : exists f g, let gen := (fun (_ _ _ : option string) n => n) in let run := run string (fun s => s) String.eqb gen in
  natives f <> natives g /\ source_yaml (generated gen g) <> source_yaml g /\
  fst (run false (g, Some (calculate_hash string (fun s => s) f))) = false.
Proof.
  exists {| script := Some "a"; config_path := None; torch_ops_file := None; source_yaml := Some "x"; shape_inference := None; lazy_ir := None;
    lazy_py := None; model_py := None; natives := "x" |},
    {| script := Some "a"; config_path := None; torch_ops_file := None; source_yaml := Some "x"; shape_inference := None; lazy_ir := None;
    lazy_py := None; model_py := None; natives := "y" |}. repeat split; discriminate.
Qed.

Example C95_nonvacuous :
  let n nm b cm ip ag := {| n_name := nm; n_base := b; composite := cm; inplace := ip; autogen := ag |} in
  let fs := [n "add.Tensor" "add" false false []; n "relu_" "relu_" false true [("relu_functional", "functional"); ("relu.out", "out")];
             n "t" "t" false false []; n "matmul" "matmul" true false []; n "zeros_like" "zeros_like" false false []; n "view" "view" false false []] in
  let c := {| blacklist := ["view"]; c_supported := ["t"]; whitelist := ["relu"]; additional_ops := ["_copy_from"] |} in
  NoDup (map n_name fs) /\
  native_lists fs c ["add.Tensor"; "relu_"; "t"; "matmul"; "zeros_like"; "view"; "foo"] =
    {| full_codegen := ["add.Tensor"; "relu_functional"; "relu"]; supported := ["t"; "_copy_from"]; composite_implicit := ["matmul"];
       skipped := ["relu_"; "zeros_like"; "view"; "foo"] |} /\
  missing_defs ["f(a)"; "g(b)"; "h(c)"] ["f(a)"] ["g(b)"] = Some ["h(c)"] /\ unnecessary_defs ["f(a)"] ["f(a)"; "k(d)"] = ["k(d)"].
Proof. cbn zeta. split; [|repeat split]. repeat constructor; cbn; intuition congruence. Qed.

Print Assumptions C95_generated_operators.
Print Assumptions C95_every_operator_is_listed.
Print Assumptions C95_lists_do_not_overlap.
Print Assumptions C95_all_functions_found.
Print Assumptions C95_missing_definitions.
Print Assumptions C95_generated_when_changed.
Print Assumptions C95_stable_after_two_runs.
Print Assumptions C95_hash_contents.
