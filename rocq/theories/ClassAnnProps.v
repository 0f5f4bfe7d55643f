(** C118: annotations of classes say what is exported and what is known of arguments, for exactly the classes and methods that are named. *)
From Coq Require Import ZArith Bool String Lia List.
From Verif Require Import Prelude ClassAnnModel ClassAnnSpec ClassAnnProofs.
Import ListNotations.
Open Scope string_scope.
Open Scope list_scope.
Open Scope nat_scope.

Section Observed.
Context (U : class -> Prop) (W : world U).
Lemma attribute_position c n i j x y : U c -> nth_error (attributes c) i = Some (n, x) -> nth_error (attributes c) j = Some (n, y) -> i = j.
Proof.
  intros Uc A B. pose proof (attribute_names U W c Uc) as N. rewrite NoDup_nth_error in N. apply N; [rewrite map_length; apply nth_error_Some; congruence|]. rewrite !nth_error_map, A, B. reflexivity.
Qed.
Lemma method_position c i j f g : U c -> nth_error (methods c) i = Some f -> nth_error (methods c) j = Some g -> f_name f = f_name g -> i = j.
Proof.
  intros Uc A B E. pose proof (method_names U W c Uc) as N. rewrite NoDup_nth_error in N. apply N; [rewrite map_length; apply nth_error_Some; congruence|]. rewrite !nth_error_map, A, B. cbn. now rewrite E.
Qed.
Lemma method_total st c n : U c -> describes U st -> has_method c n -> exists e a, method_is st c n e a.
Proof.
  intros Uc D K. unfold has_method in K. apply in_map_iff in K as (f & E & K). apply In_nth_error in K as [i K].
  destruct (nth_error (method_annotations (view st c)) i) as [[e a]|] eqn:N; [exists e, a, i, f; auto|]. apply nth_error_None in N. rewrite (proj2 (sizes U st D c Uc)) in N.
  apply nth_error_None in N. congruence.
Qed.
Lemma method_functional st c n e a e' a' : U c -> method_is st c n e a -> method_is st c n e' a' -> e = e' /\ a = a'.
Proof.
  intros Uc (i & f & A & B & C) (j & g & A' & B' & C'). assert (i = j) as <- by (apply (method_position c i j f g); congruence). rewrite C in C'. now injection C' as -> ->.
Qed.
Lemma method_exists st c n e a : method_is st c n e a -> has_method c n.
Proof. intros (i & f & A & B & _). unfold has_method. rewrite <- B. apply in_map. now apply nth_error_In in A. Qed.
Lemma marked_attribute st st' c n fa fm m : U c -> describes U st -> view st' c = marked c n fa fm (view st c) ->
  (exported_attribute st' c m <-> if string_dec m n then exists i x b, nth_error (attributes c) i = Some (n, x) /\ nth_error (attribute_annotations (view st c)) i = Some b /\ fa b = true else exported_attribute st c m).
Proof.
  intros Uc D V. unfold exported_attribute. rewrite V. unfold marked. cbn [attribute_annotations]. destruct (sizes U st D c Uc) as [S1 _]. setoid_rewrite (mark_nth (fun x : string * option class => String.eqb (fst x) n) fa); [|exact S1].
  destruct (string_dec m n) as [->|N].
  - split.
    + intros (i & x & A & B). rewrite A in B. cbn [fst] in B. rewrite String.eqb_refl in B. destruct (nth_error (attribute_annotations (view st c)) i) as [b|] eqn:E; [|discriminate]. injection B as B. exists i, x, b. auto.
    + intros (i & x & b & A & B & C). exists i, x. split; [exact A|]. rewrite A, B. cbn [fst option_map]. now rewrite String.eqb_refl, C.
  - split.
    + intros (i & x & A & B). rewrite A in B. cbn [fst] in B. apply String.eqb_neq in N. rewrite N in B. exists i, x. split; [exact A|]. destruct (nth_error (attribute_annotations (view st c)) i); [exact B|discriminate].
    + intros (i & x & A & B). exists i, x. split; [exact A|]. rewrite A, B. cbn [fst option_map]. apply String.eqb_neq in N. now rewrite N.
Qed.
Lemma marked_method st st' c n fa fm m e a : U c -> describes U st -> view st' c = marked c n fa fm (view st c) ->
  (method_is st' c m e a <-> if string_dec m n then exists e0 a0, method_is st c m e0 a0 /\ fm {| is_exported := e0; arg_annotations := a0 |} = {| is_exported := e; arg_annotations := a |} else method_is st c m e a).
Proof.
  intros Uc D V. unfold method_is. rewrite V. unfold marked. cbn [method_annotations]. destruct (sizes U st D c Uc) as [_ S1]. setoid_rewrite (mark_nth (fun m : jit_method => String.eqb (f_name m) n) fm); [|exact S1].
  destruct (string_dec m n) as [->|N].
  - split.
    + intros (i & f & A & B & C). rewrite A, B, String.eqb_refl in C. destruct (nth_error (method_annotations (view st c)) i) as [[e0 a0]|] eqn:E; [|discriminate]. injection C as C. exists e0, a0. split; [exists i, f; auto|exact C].
    + intros (e0 & a0 & (i & f & A & B & C) & E). exists i, f. split; [exact A|]. split; [exact B|]. rewrite A, C, B, String.eqb_refl. cbn. now rewrite E.
  - apply String.eqb_neq in N. split.
    + intros (i & f & A & B & C). rewrite A, B, N in C. exists i, f. split; [exact A|]. split; [exact B|]. destruct (nth_error (method_annotations (view st c)) i); [exact C|discriminate].
    + intros (i & f & A & B & C). exists i, f. split; [exact A|]. split; [exact B|]. rewrite A, C, B, N. reflexivity.
Qed.
Lemma attribute_value st c n x i : U c -> describes U st -> nth_error (attributes c) i = Some (n, x) -> exists b, nth_error (attribute_annotations (view st c)) i = Some b.
Proof.
  intros Uc D A. destruct (nth_error (attribute_annotations (view st c)) i) as [b|] eqn:N; [eauto|]. apply nth_error_None in N. rewrite (proj1 (sizes U st D c Uc)) in N. apply nth_error_None in N. congruence.
Qed.
Lemma same_view_attribute st st' c m : view st' c = view st c -> (exported_attribute st' c m <-> exported_attribute st c m).
Proof. unfold exported_attribute. now intros ->. Qed.
Lemma same_view_method st st' c m e a : view st' c = view st c -> (method_is st' c m e a <-> method_is st c m e a).
Proof. unfold method_is. now intros ->. Qed.
End Observed.

(** ** Nothing said: everything is exported *)
Theorem C118_fresh : forall U, describes U fresh_annotator /\ forall c n, (has_attribute c n -> exported_attribute fresh_annotator c n) /\ (has_method c n -> method_is fresh_annotator c n true None).
Proof.
  intros U. split.
  - split; [intros c _; unfold view; cbn; now rewrite !map_length|]. intros c i f _ _ p. cbn. split; [discriminate|intros [[] _]].
  - intros c n. split; unfold has_attribute, has_method, exported_attribute, method_is, view; cbn [fresh_annotator class_annotations find attribute_annotations method_annotations]; intros K; apply in_map_iff in K as (x & E & K); apply In_nth_error in K as [i K]; exists i.
    + exists (snd x). rewrite nth_error_map, K. destruct x. cbn in *. now subst.
    + exists x. rewrite nth_error_map, K. auto.
Qed.
(** ** exportNone: everything at and below the class *)
Theorem C118_export_none : forall U st c, world U -> describes U st -> U c ->
  describes U (export_none st c) /\ forall d n, U d ->
    (exported_attribute (export_none st c) d n <-> exported_attribute st d n /\ ~ below c d) /\
    (exported_method (export_none st c) d n <-> exported_method st d n /\ ~ below c d) /\
    (forall a, known_arguments (export_none st c) d n a <-> known_arguments st d n a).
Proof.
  intros U st c W D Uc. destruct (export_none_is U W c Uc st D) as [D' V]. split; [exact D'|]. intros d n Ud. destruct (V d Ud) as [[B E]|[B E]].
  - unfold exported_attribute, exported_method, known_arguments, method_is. rewrite E. unfold cleared. cbn [attribute_annotations method_annotations]. setoid_rewrite nth_error_map. split; [|split].
    + split; [|tauto]. intros (i & x & A & C). destruct (nth_error (attribute_annotations (view st d)) i); discriminate.
    + split; [|tauto]. intros (a & i & f & A & F & C). destruct (nth_error (method_annotations (view st d)) i); discriminate.
    + intros a. split.
      * intros (e & i & f & A & F & C). destruct (nth_error (method_annotations (view st d)) i) as [[e0 a0]|] eqn:N; [|discriminate]. cbn in C. injection C as _ <-. exists e0, i, f. auto.
      * intros (e & i & f & A & F & C). exists false, i, f. split; [exact A|]. split; [exact F|]. rewrite C. reflexivity.
  - unfold exported_attribute, exported_method, known_arguments, method_is. rewrite E. tauto.
Qed.
(** ** exportPath: the property at the path *)
Theorem C118_export_path_when : forall U st root path, world U -> describes U st -> U root ->
  ((exists st', export_path st root path = Some st') <-> exists p n c, path = p ++ [n] /\ leads root p c /\ (has_attribute c n \/ has_method c n)).
Proof.
  intros U st root path W D Ur. split.
  - destruct path as [|x path] using rev_ind; [intros [s E]; discriminate|]. intros [s E]. apply (export_path_is U W) in E as (c & L & K & _); [|exact Ur|exact D]. exists path, x, c. auto.
  - intros (p & n & c & -> & L & K). eexists. apply (export_path_is U W); [exact Ur|exact D|]. exists c. split; [exact L|]. split; [exact K|reflexivity].
Qed.
Theorem C118_export_path : forall U st root p n c st', world U -> describes U st -> U root -> leads root p c -> export_path st root (p ++ [n]) = Some st' ->
  describes U st' /\ forall d m, U d ->
    (exported_attribute st' d m <-> exported_attribute st d m \/ (d = c /\ m = n /\ has_attribute c n)) /\
    (exported_method st' d m <-> exported_method st d m \/ (d = c /\ m = n /\ has_method c n)) /\
    (forall a, known_arguments st' d m a <-> known_arguments st d m a).
Proof.
  intros U st root p n c st' W D Ur L E. apply (export_path_is U W) in E as (c' & L' & K & ->); [|exact Ur|exact D]. pose proof (leads_U U W p root c Ur L) as Uc.
  assert (c' = c) as -> by (apply (path_iff U W) in L; [|exact Ur]; apply (path_iff U W) in L'; [congruence|exact Ur]).
  destruct (marked_describes U W st c n (fun _ => true) (fun m => {| is_exported := true; arg_annotations := arg_annotations m |}) Uc D) as (D' & V & O).
  set (st' := put _ _ _) in *. split; [exact D'|]. intros d m Ud. destruct (same_or_not U W c d Uc Ud) as [<-|N].
  - split; [|split].
    + rewrite (marked_attribute U st st' c n _ _ m Uc D V). destruct (string_dec m n) as [->|N].
      * split; [intros (i & x & b & A & _); right; split; [reflexivity|]; split; [reflexivity|]; unfold has_attribute; now apply (nth_in_names fst _ i n (n, x))|].
        intros [(i & x & A & B)|(_ & _ & HA)]; [exists i, x, true; auto|]. unfold has_attribute in HA. apply in_map_iff in HA as ([n' x] & <- & J). apply In_nth_error in J as [i J]. cbn [fst]. destruct (attribute_value U st c _ x i Uc D J) as [b B]. exists i, x, b. auto.
      * split; [now left|]. intros [H|(_ & E & _)]; [exact H|contradiction].
    + unfold exported_method. setoid_rewrite (fun e a => marked_method U st st' c n _ _ m e a Uc D V). destruct (string_dec m n) as [->|N].
      * split; [intros (a & e0 & a0 & M & _); right; split; [reflexivity|]; split; [reflexivity|]; now apply (method_exists st c n e0 a0)|].
        intros [(a & M)|(_ & _ & HM)]; [exists a, true, a; auto|]. destruct (method_total U st c n Uc D HM) as (e & a & M). exists a, e, a. auto.
      * split; [now left|]. intros [H|(_ & E & _)]; [exact H|contradiction].
    + intros a. unfold known_arguments. setoid_rewrite (fun e a => marked_method U st st' c n _ _ m e a Uc D V). destruct (string_dec m n) as [->|N]; [|tauto]. split.
      * intros (e & e0 & a0 & M & F). injection F as _ <-. eauto.
      * intros (e & M). exists true, e, a. auto.
  - unfold exported_method, known_arguments. split; [|split].
    + rewrite (same_view_attribute st st' d m (O d Ud N)). split; [now left|]. intros [H|(E & _)]; [exact H|congruence].
    + setoid_rewrite (fun e a => same_view_method st st' d m e a (O d Ud N)). split; [now left|]. intros [H|(E & _)]; [exact H|congruence].
    + intros a. setoid_rewrite (fun e a => same_view_method st st' d m e a (O d Ud N)). tauto.
Qed.
(** ** annotateArgs: the method at the path *)
Theorem C118_annotate_args_when : forall U st root path args, world U -> describes U st -> U root ->
  ((exists st', annotate_args st root path args = Some st') <-> exists p c f, path = p ++ [f_name f] /\ leads root p c /\ In f (methods c) /\ length args = num_inputs f).
Proof.
  intros U st root path args W D Ur. split.
  - destruct path as [|x path] using rev_ind; [intros [s E]; discriminate|]. intros [s E]. apply (annotate_args_is U W) in E as (c & f & L & K & F & LN & _); [|exact Ur|exact D]. exists path, c, f. rewrite F. auto.
  - intros (p & c & f & -> & L & K & LN). eexists. apply (annotate_args_is U W); [exact Ur|exact D|]. exists c, f. auto.
Qed.
Theorem C118_annotate_args : forall U st root p n c args st', world U -> describes U st -> U root -> leads root p c -> annotate_args st root (p ++ [n]) args = Some st' ->
  describes U st' /\ forall d m, U d ->
    (exported_attribute st' d m <-> exported_attribute st d m) /\ (exported_method st' d m <-> exported_method st d m) /\
    (d = c /\ m = n -> forall a, known_arguments st' d m a <-> a = Some args) /\ (~ (d = c /\ m = n) -> forall a, known_arguments st' d m a <-> known_arguments st d m a).
Proof.
  intros U st root p n c args st' W D Ur L E. apply (annotate_args_is U W) in E as (c' & f & L' & K & F & LN & ->); [|exact Ur|exact D]. pose proof (leads_U U W p root c Ur L) as Uc.
  assert (c' = c) as -> by (apply (path_iff U W) in L; [|exact Ur]; apply (path_iff U W) in L'; [congruence|exact Ur]).
  destruct (marked_describes U W st c n (fun b => b) (fun m => {| is_exported := is_exported m; arg_annotations := Some args |}) Uc D) as (D' & V & O).
  set (st' := put _ _ _) in *. split; [exact D'|]. intros d m Ud. destruct (same_or_not U W c d Uc Ud) as [<-|N].
  - split; [|split; [|split]].
    + rewrite (marked_attribute U st st' c n _ _ m Uc D V). destruct (string_dec m n) as [->|N]; [|tauto]. unfold exported_attribute. split.
      * intros (i & x & b & A & B & ->). eauto.
      * intros (i & x & A & B). exists i, x, true. auto.
    + unfold exported_method. setoid_rewrite (fun e a => marked_method U st st' c n _ _ m e a Uc D V). destruct (string_dec m n) as [->|N]; [|tauto]. split.
      * intros (a & e0 & a0 & M & X). injection X as -> _. eauto.
      * intros (a & M). exists (Some args), true, a. auto.
    + intros [_ ->] a. unfold known_arguments. setoid_rewrite (fun e a => marked_method U st st' c n _ _ n e a Uc D V). destruct (string_dec n n) as [_|X]; [|contradiction]. split.
      * intros (e & e0 & a0 & M & X). now injection X as _ <-.
      * intros ->. destruct (method_total U st c n Uc D) as (e & a & M); [unfold has_method; rewrite <- F; now apply in_map|]. exists e, e, a. auto.
    + intros X a. unfold known_arguments. setoid_rewrite (fun e a => marked_method U st st' c n _ _ m e a Uc D V). destruct (string_dec m n) as [->|N]; [|tauto]. exfalso. auto.
  - unfold exported_method, known_arguments. split; [|split; [|split]].
    + apply (same_view_attribute st st' d m (O d Ud N)).
    + setoid_rewrite (fun e a => same_view_method st st' d m e a (O d Ud N)). tauto.
    + intros [E _]. congruence.
    + intros _ a. setoid_rewrite (fun e a => same_view_method st st' d m e a (O d Ud N)). tauto.
Qed.
(** ** Functions are found if their class was named *)
Theorem C118_functions : forall U st c i f, world U -> describes U st -> U c -> nth_error (methods c) i = Some f ->
  (In (class_name c) (map fst (class_annotations st)) -> forall m, annotation_for_function st (f_id f) = Some m <-> method_is st c (f_name f) (is_exported m) (arg_annotations m)) /\
  (~ In (class_name c) (map fst (class_annotations st)) -> annotation_for_function st (f_id f) = None).
Proof.
  intros U st c i f W D Uc F. unfold annotation_for_function. rewrite lookup_id_find. pose proof (places U st D c i f Uc F) as P. split.
  - intros K m. rewrite (proj2 (P (f_id f, (class_name c, i))) (conj K eq_refl)). cbn [option_map obind fst snd]. rewrite lookup_find.
    apply find_in_names in K as [q Q]. assert (V : view st c = snd q) by (unfold view; now rewrite Q). rewrite Q. cbn [option_map obind]. rewrite <- V. unfold method_is. split.
    + intros N. exists i, f. destruct m. auto.
    + intros (j & g & A & B & C). assert (i = j) as <- by (apply (method_position U W c i j f g); congruence). destruct m. exact C.
  - intros K. destruct (find _ (function_to_method st)) as [p|] eqn:E; [|reflexivity]. destruct (proj1 (P p) eq_refl) as [X _]. contradiction.
Qed.
Theorem C118_given_arguments : forall l, Forall2 given l (get_arg_annotations l).
Proof. induction l as [|[[[s d] v]|] l IH]; cbn [get_arg_annotations map]; constructor; cbn; auto. Qed.

(** ** Extraction *)
Section Extraction.
Context (U : class -> Prop) (W : world U) (apart : forall c n, U c -> has_method c n -> ~ has_attribute c n).
(** What a step adds: exported methods and annotations *)
Definition adds (E : class -> string -> Prop) (A : class -> string -> list arg_annotation -> Prop) (st st' : annotator) : Prop :=
  describes U st' /\ forall c n, U c ->
    (exported_attribute st' c n <-> exported_attribute st c n) /\ (exported_method st' c n <-> exported_method st c n \/ E c n) /\
    ((exists x, A c n x /\ forall a, known_arguments st' c n a <-> a = Some x) \/ ((forall x, ~ A c n x) /\ forall a, known_arguments st' c n a <-> known_arguments st c n a)).
Lemma adds_trans E A E' A' s1 s2 s3 : adds E A s1 s2 -> adds E' A' s2 s3 -> adds (fun c n => E c n \/ E' c n) (fun c n x => A c n x \/ A' c n x) s1 s3.
Proof.
  intros [D1 H1] [D2 H2]. split; [exact D2|]. intros c n Uc. destruct (H1 c n Uc) as (X1 & Y1 & Z1), (H2 c n Uc) as (X2 & Y2 & Z2). split; [tauto|]. split; [tauto|].
  destruct Z2 as [(x & K & Z)|(K & Z)]; [left; exists x; auto|]. destruct Z1 as [(x & K' & Z')|(K' & Z')].
  - left. exists x. split; [now left|]. intros a. rewrite Z. apply Z'.
  - right. split; [intros x [J|J]; [now apply (K' x)|now apply (K x)]|]. intros a. rewrite Z. apply Z'.
Qed.
Lemma adds_iff E A E' A' s1 s2 : (forall c n, U c -> (E c n <-> E' c n)) -> (forall c n x, U c -> (A c n x <-> A' c n x)) -> adds E A s1 s2 -> adds E' A' s1 s2.
Proof.
  intros HE HA [D H]. split; [exact D|]. intros c n Uc. destruct (H c n Uc) as (X & Y & Z). split; [exact X|]. split; [rewrite Y, (HE c n Uc); tauto|].
  destruct Z as [(x & K & Z)|(K & Z)]; [left; exists x; split; [now apply HA|exact Z]|right; split; [|exact Z]]. intros x J. apply (K x). now apply HA.
Qed.
Lemma adds_nothing st : describes U st -> adds (fun _ _ => False) (fun _ _ _ => False) st st.
Proof. intros D. split; [exact D|]. intros c n _. split; [tauto|]. split; [tauto|]. right. split; [tauto|tauto]. Qed.

Lemma step_export st t n d : U t -> describes U st -> has_method t n -> exists st', (if has_export d then export_path st t [n] else Some st) = Some st' /\
  adds (fun c m => c = t /\ m = n /\ has_export d = true) (fun _ _ _ => False) st st'.
Proof.
  intros Ut D HM. destruct (has_export d).
  - destruct (proj2 (C118_export_path_when U st t [n] W D Ut)) as [st' E]; [exists [], n, t; split; [reflexivity|]; split; [constructor|now right]|]. exists st'. split; [exact E|].
    destruct (C118_export_path U st t [] n t st' W D Ut (leads_here t) E) as [D' H]. split; [exact D'|]. intros c m Uc. destruct (H c m Uc) as (X & Y & Z). split; [|split].
    + rewrite X. split; [|now left]. intros [K|(-> & -> & K)]; [exact K|]. exfalso. now apply (apart t n).
    + rewrite Y. split; [intros [K|(K1 & K2 & K3)]; [now left|right; auto]|]. intros [K|(K1 & K2 & K3)]; [now left|right; auto].
    + right. split; [tauto|exact Z].
  - exists st. split; [reflexivity|]. apply (adds_iff (fun _ _ => False) (fun _ _ _ => False)); [|tauto|now apply adds_nothing]. intros c m _. split; [tauto|intros (_ & _ & X); discriminate].
Qed.
Lemma step_args st t n d : U t -> describes U st -> has_method t n -> (forall a f, has_args d = Some a -> In f (methods t) -> f_name f = n -> length a = num_inputs f) ->
  exists st', match has_args d with Some a => annotate_args st t [n] (get_arg_annotations a) | None => Some st end = Some st' /\
  adds (fun _ _ => False) (fun c m x => c = t /\ m = n /\ exists a, has_args d = Some a /\ x = get_arg_annotations a) st st'.
Proof.
  intros Ut D HM LN. destruct (has_args d) as [a|].
  - pose proof HM as HM'. unfold has_method in HM'. apply in_map_iff in HM' as (f & F & K).
    destruct (proj2 (C118_annotate_args_when U st t [n] (get_arg_annotations a) W D Ut)) as [st' E].
    { exists [], t, f. split; [now rewrite F|]. split; [constructor|]. split; [exact K|]. unfold get_arg_annotations. rewrite map_length. now apply LN. }
    exists st'. split; [exact E|]. destruct (C118_annotate_args U st t [] n t _ st' W D Ut (leads_here t) E) as [D' H]. split; [exact D'|]. intros c m Uc. destruct (H c m Uc) as (X & Y & Z & Z'). split; [exact X|]. split; [tauto|].
    destruct (same_or_not U W t c Ut Uc) as [<-|N].
    + destruct (string_dec m n) as [->|N]; [left; exists (get_arg_annotations a); split; [split; [reflexivity|split; [reflexivity|eauto]]|now apply Z]|].
      right. split; [intros x (_ & J & _); contradiction|apply Z'; tauto].
    + right. split; [intros x (J & _); congruence|apply Z'; intros [J _]; congruence].
  - exists st. split; [reflexivity|]. apply (adds_iff (fun _ _ => False) (fun _ _ _ => False)); [tauto| |now apply adds_nothing]. intros c m x _. split; [tauto|intros (_ & _ & b & X & _); discriminate].
Qed.
Lemma methods_step t ms : U t -> NoDup (map fst ms) -> forall names st, describes U st -> (forall n, In n names -> has_method t n /\ In n (map fst ms)) ->
  (forall n d a f, In n names -> In (n, d) ms -> has_args d = Some a -> In f (methods t) -> f_name f = n -> length a = num_inputs f) ->
  exists st', extract_methods names t ms st = Some st' /\
    adds (fun c m => c = t /\ In m names /\ exists d, In (m, d) ms /\ has_export d = true) (fun c m x => c = t /\ In m names /\ exists d a, In (m, d) ms /\ has_args d = Some a /\ x = get_arg_annotations a) st st'.
Proof.
  intros Ut ND. induction names as [|n names IH]; intros st D HN HL.
  - exists st. split; [reflexivity|]. apply (adds_iff (fun _ _ => False) (fun _ _ _ => False)); [intros c m _; cbn; tauto|intros c m x _; cbn; tauto|now apply adds_nothing].
  - destruct (HN n (or_introl eq_refl)) as [HM IM]. apply in_map_iff in IM as ([n' d] & E & IM). cbn [fst] in E. subst n'. cbn [extract_methods]. pose proof (proj2 (lookup_in ms n d ND) IM) as LK. rewrite LK. cbn [obind].
    destruct (step_export st t n d Ut D HM) as (s1 & E1 & A1). rewrite E1. cbn [obind]. destruct (step_args s1 t n d Ut (proj1 A1) HM) as (s2 & E2 & A2); [intros a f; apply (HL n d a f); [now left|exact IM]|].
    rewrite E2. cbn [obind]. destruct (IH s2 (proj1 A2)) as (s3 & E3 & A3); [intros m K; apply HN; now right|intros m e a f K; apply (HL m e a f); now right|]. exists s3. split; [exact E3|].
    refine (adds_iff _ _ _ _ _ _ _ _ (adds_trans _ _ _ _ _ _ _ (adds_trans _ _ _ _ _ _ _ A1 A2) A3)); [intros c m _; split|intros c m x _; split]; cbn beta.
    + intros [[(-> & -> & X)|[]]|(-> & K & e & J & X)]; [split; [reflexivity|]; split; [now left|]; eauto|split; [reflexivity|]; split; [now right|]; eauto].
    + intros (-> & [<-|K] & e & J & X); [left; left; split; [reflexivity|]; split; [reflexivity|]; apply (lookup_in ms n e ND) in J; congruence|right; split; [reflexivity|]; split; [exact K|]; eauto].
    + intros [[[]|(-> & -> & a & X & Y)]|(-> & K & e & a & J & X & Y)]; [split; [reflexivity|]; split; [now left|]; eauto 6|split; [reflexivity|]; split; [now right|]; eauto 6].
    + intros (-> & [<-|K] & e & a & J & X & Y); [left; right; split; [reflexivity|]; split; [reflexivity|]; exists a; split; [|exact Y]; apply (lookup_in ms n e ND) in J; congruence|right; split; [reflexivity|]; split; [exact K|]; eauto 6].
Qed.
Definition annotates_as (m : pymodule) (s : scripted) c n x := exists a, annotates m s c n a /\ x = get_arg_annotations a.
Lemma extract_step m : forall s st, mirrors m s -> (forall m' s', paired m s m' s' -> U (type_of s')) -> describes U st ->
  exists st', recursively_extract m s st = Some st' /\ adds (exports m s) (annotates_as m s) st st'.
Proof.
  induction m as [cls ms children b IH] using module_tree. intros s st M HU D. inversion M as [? ? ? ? orig t names subs HC N1 N2 HM HL HCH]; subst.
  cbn [recursively_extract]. assert (G : String.eqb cls orig || b = true) by (destruct HC as [-> | ->]; [now rewrite String.eqb_refl|apply orb_true_r]). rewrite G. cbn [guard obind].
  assert (Ut : U t) by (apply (HU (Module cls ms children b) (Scripted orig t names subs)); constructor).
  destruct (methods_step t ms Ut N1 names st D HM HL) as (s1 & E1 & A1). rewrite E1. cbn [obind].
  assert (L : forall l, incl l children -> Forall (fun p => forall s st, mirrors (snd p) s -> (forall m' s', paired (snd p) s m' s' -> U (type_of s')) -> describes U st ->
      exists st', recursively_extract (snd p) s st = Some st' /\ adds (exports (snd p) s) (annotates_as (snd p) s) st st') l -> forall s1, describes U s1 ->
    exists s2, (fix recurse (l : list (string * pymodule)) (st : annotator) : option annotator :=
         match l with [] => Some st | (name, child) :: r => do scripted_child <- lookup_s subs name; do st <- recursively_extract child scripted_child st; recurse r st end) l s1 = Some s2 /\
      adds (fun c n => exists x m d, In (x, m) l /\ In (x, d) subs /\ exports m d c n) (fun c n y => exists x m d, In (x, m) l /\ In (x, d) subs /\ annotates_as m d c n y) s1 s2).
  { clear IH E1 A1 s1. induction l as [|[x m] l IHl]; intros INC FA s1 D1.
    - exists s1. split; [reflexivity|]. apply (adds_iff (fun _ _ => False) (fun _ _ _ => False)); [intros c n _; split; [tauto|intros (x & m & d & [] & _)]|intros c n y _; split; [tauto|intros (x & m & d & [] & _)]|now apply adds_nothing].
    - inversion_clear FA as [|? ? F1 F2]. cbn [snd] in F1. destruct (HCH x m (INC _ (or_introl eq_refl))) as (d & I1 & M1). pose proof (proj2 (lookup_in subs x d N2) I1) as LK.
      destruct (F1 d s1 M1) as (s2 & E2 & A2); [|exact D1|].
      { intros m' s' P. apply (HU m' s'). apply (paired_child cls ms children b orig t names subs x m d m' s'); [apply INC; now left|exact I1|exact P]. }
      rewrite LK. cbn [obind]. rewrite E2. cbn [obind]. destruct (IHl (fun y K => INC y (or_intror K)) F2 s2 (proj1 A2)) as (s3 & E3 & A3). exists s3. split; [exact E3|].
      refine (adds_iff _ _ _ _ _ _ _ _ (adds_trans _ _ _ _ _ _ _ A2 A3)); [intros c n _; split|intros c n y _; split]; cbn beta.
      + intros [K|(y & m' & d' & J & K)]; [exists x, m, d; split; [now left|auto]|exists y, m', d'; split; [now right|exact K]].
      + intros (y & m' & d' & [J|J] & K1 & K2); [injection J as <- <-; apply (lookup_in subs x d' N2) in K1; left; congruence|right; exists y, m', d'; auto].
      + intros [K|(z & m' & d' & J & K)]; [exists x, m, d; split; [now left|auto]|exists z, m', d'; split; [now right|exact K]].
      + intros (z & m' & d' & [J|J] & K1 & K2); [injection J as <- <-; apply (lookup_in subs x d' N2) in K1; left; congruence|right; exists z, m', d'; auto]. }
  destruct (L children (fun y K => K) IH s1 (proj1 A1)) as (s2 & E2 & A2). exists s2. split; [exact E2|].
  refine (adds_iff _ _ _ _ _ _ _ _ (adds_trans _ _ _ _ _ _ _ A1 A2)); [intros c n _; split|intros c n y _; split]; cbn beta.
  - intros [(-> & K & d & J & X)|(x & m & d & J1 & J2 & m' & s' & e & P & Q)].
    + exists (Module cls ms children b), (Scripted orig t names subs), d. split; [constructor|]. cbn. auto.
    + exists m', s', e. split; [now apply (paired_child cls ms children b orig t names subs x m d)|exact Q].
  - intros (m' & s' & e & P & Q). inversion P; subst; [left; cbn [type_of script_methods_of py_methods_of] in Q; destruct Q as (<- & Q1 & Q2 & Q3); eauto|].
    right. eexists _, _, _. split; [eassumption|]. split; [eassumption|]. exists m', s', e. auto.
  - intros [(-> & K & d & a & J & X & Y)|(x & m & d & J1 & J2 & a & (m' & s' & e & P & Q) & Y)].
    + exists a. split; [|exact Y]. exists (Module cls ms children b), (Scripted orig t names subs), d. split; [constructor|]. cbn. auto.
    + exists a. split; [|exact Y]. exists m', s', e. split; [now apply (paired_child cls ms children b orig t names subs x m d)|exact Q].
  - intros (a & (m' & s' & e & P & Q) & Y). inversion P; subst; [left; cbn [type_of script_methods_of py_methods_of] in Q; destruct Q as (<- & Q1 & Q2 & Q3); eauto 8|].
    right. eexists _, _, _. split; [eassumption|]. split; [eassumption|]. exists a. split; [exists m', s', e; auto|reflexivity].
Qed.
End Extraction.
(** Every class of the program exports the methods that are decorated in a module of the class, and nothing else; arguments are known as decorated. *)
Theorem C118_extraction : forall U m s st, world U -> (forall c n, U c -> has_method c n -> ~ has_attribute c n) -> describes U st -> mirrors m s ->
  (forall m' s', paired m s m' s' -> U (type_of s')) -> exists st', extract_annotations m s st = Some st' /\ describes U st' /\ forall c n, U c ->
    (exported_attribute st' c n <-> exported_attribute st c n /\ ~ below (type_of s) c) /\
    (exported_method st' c n <-> exports m s c n \/ (exported_method st c n /\ ~ below (type_of s) c)) /\
    ((exists l x, annotates m s c n l /\ Forall2 given l x /\ forall a, known_arguments st' c n a <-> a = Some x) \/
     ((forall l, ~ annotates m s c n l) /\ forall a, known_arguments st' c n a <-> known_arguments st c n a)).
Proof.
  intros U m s st W AP D M HU. assert (Ut : U (type_of s)) by (apply (HU m s); constructor). destruct (C118_export_none U st (type_of s) W D Ut) as [D0 H0].
  destruct (extract_step U W AP m s (export_none st (type_of s)) M HU D0) as (st' & E & D' & H). exists st'. split; [unfold extract_annotations; destruct s; exact E|]. split; [exact D'|].
  intros c n Uc. destruct (H c n Uc) as (X & Y & Z), (H0 c n Uc) as (X0 & Y0 & Z0). split; [tauto|]. split; [tauto|]. destruct Z as [(x & (l & A & ->) & Z)|(A & Z)].
  - left. exists l, (get_arg_annotations l). split; [exact A|]. split; [apply C118_given_arguments|exact Z].
  - right. split; [intros l K; apply (A (get_arg_annotations l)); now exists l|]. intros a. rewrite Z. apply Z0.
Qed.

(** ** A program with two modules of one class *)
Definition linear : class := Class "Linear" [("weight", None)] [{| f_name := "forward"; f_id := 1; num_inputs := 2 |}; {| f_name := "extra"; f_id := 2; num_inputs := 1 |}].
Definition model : class := Class "Model" [("a", Some linear); ("b", Some linear); ("size", None)] [{| f_name := "forward"; f_id := 3; num_inputs := 2 |}].
Definition both (c : class) : Prop := c = linear \/ c = model.
Lemma both_world : world both.
Proof.
  split.
  - intros c n d [-> | ->] K; cbn in K; [destruct K as [K|[]]; discriminate|]. destruct K as [K|[K|[K|[]]]]; [injection K as _ <-; now left|injection K as _ <-; now left|discriminate].
  - intros c d [-> | ->] [-> | ->] E; (reflexivity || discriminate).
  - intros c d i j f g [-> | ->] [-> | ->] F G E; destruct i as [|[|[|i]]]; cbn in F; try discriminate F; destruct j as [|[|[|j]]]; cbn in G; try discriminate G; injection F as <-; injection G as <-; cbn in E; try discriminate E; auto.
  - intros c [-> | ->]; cbn; repeat constructor; cbn; intuition discriminate.
  - intros c [-> | ->]; cbn; repeat constructor; cbn; intuition discriminate.
Qed.
Definition plain_method : decorated := {| has_export := false; has_args := None |}.
Definition forward_method : decorated := {| has_export := true; has_args := Some [None; Some (Some [2; -1]%Z, Some 6%Z, true)] |}.
Definition py_linear : pymodule := Module "Linear" [("forward", plain_method); ("extra", {| has_export := true; has_args := None |})] [] false.
Definition py_model : pymodule := Module "Model" [("forward", forward_method)] [("a", py_linear); ("b", py_linear)] false.
Definition ts_linear : scripted := Scripted "Linear" linear ["forward"; "extra"] [].
Definition ts_model : scripted := Scripted "Model" model ["forward"] [("a", ts_linear); ("b", ts_linear)].
Example C118_nonvacuous :
  world both /\ mirrors py_model ts_model /\ (forall c n, both c -> has_method c n -> ~ has_attribute c n) /\
  option_map (fun st => (view st model, view st linear, annotation_for_function st 3)) (extract_annotations py_model ts_model fresh_annotator) =
  (let forward := {| is_exported := true; arg_annotations := Some [{| shape := None; dtype := None; value_semantics := false |}; {| shape := Some [2; -1]%Z; dtype := Some 6%Z; value_semantics := true |}] |} in
  Some ({| attribute_annotations := [false; false; false]; method_annotations := [forward] |},
        {| attribute_annotations := [false]; method_annotations := [{| is_exported := false; arg_annotations := None |}; {| is_exported := true; arg_annotations := None |}] |}, Some forward)) /\
  export_path fresh_annotator model ["a"; "nothing"] = None /\ annotate_args fresh_annotator model ["forward"] [] = None /\ export_path fresh_annotator model ["size"; "x"] = None.
Proof.
  split; [exact both_world|]. split.
  { assert (ML : mirrors py_linear ts_linear).
    { constructor; [now left|repeat constructor; cbn; intuition discriminate|constructor| | |intros n c []].
      - intros n [<-|[<-|[]]]; unfold has_method; cbn; auto.
      - intros n d a f _ [K|[K|[]]]; injection K as <- <-; discriminate. }
    constructor; [now left|repeat constructor; cbn; intuition discriminate|repeat constructor; cbn; intuition discriminate| | |].
    - intros n [<-|[]]; unfold has_method; cbn; auto.
    - intros n d a f _ [K|[]]; injection K as <- <-. intros E [<-|[]] _. now injection E as <-.
    - intros n c [K|[K|[]]]; injection K as <- <-; exists ts_linear; cbn; auto. }
  split; [intros c n [-> | ->]; unfold has_method, has_attribute; cbn; intuition congruence|]. split; [reflexivity|]. split; [reflexivity|]. split; reflexivity.
Qed.
(** Where a path is not checked further: an attribute that has the name of a method is exported with it. *)
Theorem C118_one_name_refuted : exists c n st', has_method c n /\ has_attribute c n /\ export_path (export_none fresh_annotator c) c [n] = Some st' /\ exported_attribute st' c n /\ exported_method st' c n.
Proof.
  exists (Class "M" [("forward", None)] [{| f_name := "forward"; f_id := 1; num_inputs := 1 |}]), "forward". eexists. split; [now left|]. split; [now left|]. split; [reflexivity|].
  split; [exists 0, None; split; reflexivity|]. exists None, 0, {| f_name := "forward"; f_id := 1; num_inputs := 1 |}. split; [reflexivity|]. split; reflexivity.
Qed.
Print Assumptions C118_export_none.
Print Assumptions C118_export_path.
Print Assumptions C118_annotate_args.
Print Assumptions C118_functions.
Print Assumptions C118_extraction.
