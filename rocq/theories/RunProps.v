(** Proofs about calling compiled programs, converting their data and describing their inputs (RunModel.v, RunSpec.v). *)
From Coq Require Import ZArith Lia Bool Ascii String List Sorted OrderedTypeEx DecimalString.
From Verif Require Import Prelude DtypeModel AsStridedModel RunModel RunSpec FxNameProps.
Import ListNotations.
Open Scope string_scope.
Open Scope list_scope.
Open Scope Z_scope.

(** ** Names of the callbacks *)
Lemma sapp_assoc a b c : ((a ++ b) ++ c = a ++ (b ++ c))%string.
Proof. induction a as [|x a IH]; cbn; [reflexivity|]. rewrite IH. reflexivity. Qed.
Lemma sapp_nil a : (a ++ "" = a)%string.
Proof. induction a as [|x a IH]; cbn; [reflexivity|]. rewrite IH. reflexivity. Qed.
Lemma accumulate_words : forall l a, a <> "" ->
  fold_left (fun a b => if String.eqb a "" then b else (a ++ "_" ++ b)%string) l a = (a ++ words l)%string.
Proof.
  induction l as [|b l IH]; intros a N; cbn [fold_left words].
  - rewrite sapp_nil. reflexivity.
  - destruct (String.eqb_spec a "") as [X|_]; [congruence|]. rewrite IH; [|destruct a; cbn; congruence].
    rewrite !sapp_assoc. reflexivity.
Qed.
Lemma consume_name_words ts n : consume_name ts = Some n <-> exists ws, mapM type_token ts = Some ws /\ n = consumer_of ws.
Proof.
  unfold consume_name. destruct (mapM type_token ts) as [l|]; cbn [obind].
  - unfold accumulate. cbn [fold_left]. change (if String.eqb "" "" then "refbackend_consume_func_return" else _) with "refbackend_consume_func_return".
    rewrite accumulate_words by discriminate. change (_ ++ words l)%string with (consumer_of l). split.
    + intros [= <-]. eauto.
    + intros (ws & [= <-] & ->). reflexivity.
  - split; [discriminate|]. intros (ws & X & _). discriminate.
Qed.
Fixpoint no_underscore (s : string) : bool := match s with EmptyString => true | String c r => negb (Ascii.eqb c "_") && no_underscore r end.
Lemma split_words : forall ws w, no_underscore w = true -> Forall (fun w => no_underscore w = true) ws -> split (w ++ words ws) = w :: ws.
Proof.
  induction ws as [|v ws IH]; intros w N A.
  - cbn [words]. rewrite sapp_nil. revert N. clear. induction w as [|c w IH]; cbn; [reflexivity|].
    intros H. apply andb_prop in H as (H & K). destruct (Ascii.eqb c "_"); [discriminate|]. rewrite IH by exact K. reflexivity.
  - inversion A as [|? ? A1 A2]; subst. specialize (IH v A1 A2).
    assert (X : split (words (v :: ws)) = "" :: v :: ws) by (cbn [words String.append split]; cbn; rewrite IH; reflexivity).
    revert N X. generalize (words (v :: ws)). intros tail N X. revert N. induction w as [|c w IHw]; cbn [String.append split no_underscore]; intros H.
    + exact X.
    + apply andb_prop in H as (H & K). destruct (Ascii.eqb c "_"); [discriminate|]. rewrite IHw by exact K. reflexivity.
Qed.
Lemma drop_prefix w ws : drop (String.length PREFIX) (consumer_of (w :: ws)) = (w ++ words ws)%string.
Proof. reflexivity. Qed.
Lemma prefix_consumer w ws : String.prefix PREFIX (consumer_of (w :: ws)) = true.
Proof.
  change (consumer_of (w :: ws)) with (PREFIX ++ (w ++ words ws))%string. generalize (w ++ words ws)%string. generalize PREFIX.
  induction s as [|c s IH]; intros t; [destruct t; reflexivity|]. cbn [String.append String.prefix].
  destruct (Ascii.ascii_dec c c); [apply IH|congruence].
Qed.
Definition ctype_of (r : reading) : option ctype := match r with ANumber c => Some c | AnArray _ => None end.
Ltac known_cases :=
  repeat match goal with
  | H : known _ _ _ |- _ => inversion H; clear H; subst
  | H : In _ known_elements |- _ => unfold known_elements in H; cbn [In] in H
  | H : In _ known_arrays |- _ => unfold known_arrays in H; cbn [In] in H
  | H : _ \/ _ |- _ => destruct H
  | H : False |- _ => destruct H
  | H : (_, _) = (_, _) |- _ => injection H; clear H; intros; subst
  end.
Lemma known_words t w r : known t w r -> type_token (abi t) = Some w /\ parameter_ctype w = Some (ctype_of r) /\ no_underscore w = true.
Proof. intros H. known_cases; repeat split; reflexivity. Qed.
Lemma known_words_inj t w r t' r' : known t w r -> known t' w r' -> abi t = abi t' /\ r = r'.
Proof. intros H K. known_cases; first [discriminate|split; reflexivity]. Qed.
Lemma unranked_abi t u : unranked t u <-> u = abi t.
Proof. split; [intros []; reflexivity|intros ->; destruct t; constructor]. Qed.
Lemma unranked_abis l r : Forall2 unranked l r <-> r = map abi l.
Proof.
  split.
  - induction 1 as [|x y l r H _ IH]; [reflexivity|]. apply unranked_abi in H as ->. cbn. congruence.
  - intros ->. induction l; constructor; auto. apply unranked_abi. reflexivity.
Qed.
Lemma known_all : forall ts, Forall returnable ts -> exists ws rs, Forall2 (fun t p => known t (fst p) (snd p)) ts (combine ws rs) /\
  length ws = length ts /\ length rs = length ts /\ mapM type_token (map abi ts) = Some ws /\ mapM parameter_ctype ws = Some (map ctype_of rs) /\ Forall (fun w => no_underscore w = true) ws.
Proof.
  induction 1 as [|t ts (w & r & K) _ (ws & rs & A & L & L' & B & C & D)].
  - exists [], []. repeat split; constructor.
  - destruct (known_words _ _ _ K) as (K1 & K2 & K3). exists (w :: ws), (r :: rs). cbn [map mapM combine length].
    rewrite K1, B, K2, C. cbn [obind]. repeat split; auto.
Qed.

(** Distinct lists of result types get distinct callbacks, and Python recovers the words. *)
Theorem C79_names ts ts' n : Forall returnable ts -> Forall returnable ts' ->
  consume_name (map abi ts) = Some n -> consume_name (map abi ts') = Some n -> map abi ts = map abi ts'.
Proof.
  intros A A' H H'. apply consume_name_words in H as (ws & H & E). apply consume_name_words in H' as (ws' & H' & E').
  destruct (known_all _ A) as (vs & rs & K & L1 & L2 & V & _ & U). destruct (known_all _ A') as (vs' & rs' & K' & L1' & L2' & V' & _ & U').
  assert (vs = ws) by congruence. assert (vs' = ws') by congruence. subst vs vs'.
  assert (ws = ws').
  { rewrite E in E'. unfold consumer_of in E'. cbn [String.append] in E'. injection E' as E'.
    assert (S1 : split (words ws) = "" :: ws) by (apply (split_words ws "" eq_refl U)).
    assert (S2 : split (words ws') = "" :: ws') by (apply (split_words ws' "" eq_refl U')).
    rewrite E' in S1. congruence. }
  subst ws'. clear - K K' L1 L2 L1' L2'. revert ts ts' rs rs' K K' L1 L2 L1' L2'.
  induction ws as [|w ws IH]; intros [|t ts] [|t' ts'] rs rs' K K' L1 L2 L1' L2'; cbn in *; try discriminate; [reflexivity|].
  destruct rs as [|r rs]; [discriminate|]. destruct rs' as [|r' rs']; [discriminate|]. cbn [combine] in *.
  inversion K; inversion K'; subst. cbn [fst snd] in *. f_equal; [eapply known_words_inj; eassumption|].
  cbn [length] in *. eapply IH; eauto; lia.
Qed.

(** ** The pass *)
Lemma argument_type_valid t : valid_arg t = true <-> argument_type t.
Proof.
  split.
  - unfold argument_type. destruct t as [e|s e|e]; try discriminate. intros H. exists s, e. split; [reflexivity|]. revert H. cbn.
    destruct e; try discriminate.
    + destruct s0; try discriminate; intros H.
      * apply Z.eqb_eq in H as ->. tauto.
      * assert (C : width = 64 \/ width = 32 \/ width = 16 \/ width = 8 \/ width = 1) by (rewrite !orb_true_iff, !Z.eqb_eq in H; tauto).
        destruct C as [-> |[-> |[-> |[-> | ->]]]]; tauto.
    + destruct f; try discriminate; tauto.
    + destruct e; try discriminate. destruct f; try discriminate; tauto.
  - intros (s & e & -> & H). cbn in H. repeat destruct H as [<- |H]; try reflexivity. destruct H.
Qed.
Lemma argument_types_valid l : forallb valid_arg l = true <-> Forall argument_type l.
Proof. rewrite forallb_forall, Forall_forall. split; intros H x I; apply argument_type_valid; auto. Qed.
Notation slt := (fun a b => String.ltb a b = true).
Lemma slt_lt a b : String.ltb a b = true <-> String_as_OT.lt a b.
Proof.
  unfold String.ltb. rewrite <- String_as_OT.cmp_lt. unfold String_as_OT.cmp. destruct (String.compare a b); split; congruence.
Qed.
Lemma slt_trans a b c : String.ltb a b = true -> String.ltb b c = true -> String.ltb a c = true.
Proof. rewrite !slt_lt. apply String_as_OT.lt_trans. Qed.
Lemma slt_irrefl a : String.ltb a a = false.
Proof. destruct (String.ltb a a) eqn:E; [|reflexivity]. apply slt_lt in E. apply String_as_OT.lt_not_eq in E. congruence. Qed.
Lemma slt_total a b : a <> b -> String.ltb a b = false -> String.ltb b a = true.
Proof.
  unfold String.ltb. rewrite (String.compare_antisym a b). destruct (String.compare b a) eqn:E; cbn; try congruence.
  intros N _. apply String.compare_eq_iff in E. congruence.
Qed.
Lemma insert_keys k v t : StronglySorted slt (map fst t) ->
  StronglySorted slt (map fst (insert_absent k v t)) /\ (forall n, In n (map fst (insert_absent k v t)) <-> n = k \/ In n (map fst t)) /\
  (forall p, In p (insert_absent k v t) -> p = (k, v) \/ In p t).
Proof.
  induction t as [|(k', v') t IH]; cbn [insert_absent map fst]; intros S.
  - cbn. split; [repeat constructor|]. split; intros; intuition congruence.
  - inversion S as [|? ? S1 S2]; subst. specialize (IH S1) as (I1 & I2 & I3).
    destruct (String.eqb_spec k k') as [->|N].
    + cbn. split; [exact S|]. split; intros; intuition congruence.
    + destruct (String.ltb k k') eqn:Lt.
      * cbn. split; [|split; intros; intuition congruence]. constructor; [exact S|]. constructor; [exact Lt|].
        rewrite Forall_forall in *. intros x X. eapply slt_trans; [exact Lt|]. auto.
      * cbn. split; [|split].
        -- constructor; [exact I1|]. rewrite Forall_forall in *. intros x X. apply I2 in X as [->|X]; [apply slt_total; auto|auto].
        -- intros n. rewrite I2. intuition congruence.
        -- intros p [<- |P]; [auto|]. apply I3 in P as [->|P]; auto.
Qed.
Definition well_kept (fs : list func) (t : table) : Prop :=
  StronglySorted slt (map fst t) /\
  (forall n, In n (map fst t) <-> exists f types, In f fs /\ f_private f = false /\ Forall2 unranked (f_results f) types /\ consume_name types = Some n) /\
  (forall n v, In (n, v) t -> consume_name v = Some n).
Definition acceptable (f : func) : Prop :=
  f_private f = true \/ Forall argument_type (f_args f) /\ exists types n, Forall2 unranked (f_results f) types /\ consume_name types = Some n.
Lemma munge_steps : forall fs done t ms, well_kept done t -> Forall2 rewritten done ms ->
  match foldM munge_function fs (t, ms) with
  | Some (t', ms') => Forall acceptable fs /\ well_kept (done ++ fs) t' /\ Forall2 rewritten (done ++ fs) ms'
  | None => ~ Forall acceptable fs
  end.
Proof.
  induction fs as [|f fs IH]; intros done t ms W R; cbn [foldM].
  - rewrite app_nil_r. auto.
  - unfold munge_function at 1. destruct (f_private f) eqn:P; cbn [obind].
    + match goal with |- context [foldM munge_function fs (?a, ?b)] => specialize (IH (done ++ [f]) a b) end.
      rewrite <- !app_assoc in IH. cbn [List.app] in IH.
      assert (W' : well_kept (done ++ [f]) t).
      { destruct W as (W1 & W2 & W3). split; [exact W1|]. split; [|exact W3]. intros n. rewrite W2. split; intros (g & ty & G & G2 & G3).
        - exists g, ty. split; [apply in_or_app; auto|auto].
        - exists g, ty. split; [|auto]. apply in_app_or in G as [G|[<- |[]]]; [exact G|congruence]. }
      specialize (IH W'). match type of IH with ?X -> _ => assert (R' : X) end.
      { apply Forall2_app; [exact R|]. constructor; [|constructor]. unfold rewritten. cbn. rewrite P. auto. }
      specialize (IH R'). destruct (foldM munge_function fs _) as [(t', ms')|].
      * destruct IH as (I1 & I2 & I3). split; [constructor; [left; exact P|exact I1]|auto].
      * intros H. inversion H; auto.
    + destruct (forallb valid_arg (f_args f)) eqn:V; cbn [guard obind].
      2:{ intros H. inversion H as [|? ? [X|(X & _)] _]; subst; [congruence|]. apply argument_types_valid in X. congruence. }
      apply argument_types_valid in V. destruct (consume_name (map abi (f_results f))) as [n|] eqn:N; cbn [obind].
      2:{ intros H. inversion H as [|? ? [X|(_ & ty & n & X & Y)] _]; subst; [congruence|]. apply unranked_abis in X as ->. congruence. }
      match goal with |- context [foldM munge_function fs (?a, ?b)] => specialize (IH (done ++ [f]) a b) end.
      rewrite <- !app_assoc in IH. cbn [List.app] in IH.
      assert (W' : well_kept (done ++ [f]) (insert_absent n (map abi (f_results f)) t)).
      { destruct W as (W1 & W2 & W3). destruct (insert_keys n (map abi (f_results f)) t W1) as (K1 & K2 & K3).
        split; [exact K1|]. split.
        - intros m. rewrite K2, W2. split.
          + intros [->|(g & ty & G & G2)]; [exists f, (map abi (f_results f))|exists g, ty].
            * split; [apply in_or_app; cbn; auto|]. split; [exact P|]. split; [apply unranked_abis; reflexivity|exact N].
            * split; [apply in_or_app; auto|auto].
          + intros (g & ty & G & G2 & G3 & G4). apply in_app_or in G as [G|[<- |[]]]; [eauto 8|].
            apply unranked_abis in G3 as ->. left. congruence.
        - intros m v M. apply K3 in M as [[= -> ->]|M]; [exact N|auto]. }
      specialize (IH W'). match type of IH with ?X -> _ => assert (R' : X) end.
      { apply Forall2_app; [exact R|]. constructor; [|constructor]. unfold rewritten. cbn. rewrite P. split; [reflexivity|]. split; [reflexivity|].
        split; [exact V|]. split; [apply unranked_abis; reflexivity|]. exists (map abi (f_results f)), n. split; [apply unranked_abis; reflexivity|auto]. }
      specialize (IH R'). destruct (foldM munge_function fs _) as [(t', ms')|].
      * destruct IH as (I1 & I2 & I3). split; [constructor; [right|exact I1]|auto].
        split; [exact V|]. exists (map abi (f_results f)), n. split; [apply unranked_abis; reflexivity|exact N].
      * intros H. inversion H; auto.
Qed.

(** The pass accepts exactly the modules whose public functions take memrefs of the eleven element types and return types that have a
    word; it rewrites each function, and declares, in increasing order and once each, exactly the callbacks that are called. *)
Theorem C79_pass fs :
  match munge fs with
  | Some (t, ms) => Forall acceptable fs /\ Forall2 rewritten fs ms /\ StronglySorted slt (map fst t) /\
      (forall n, In n (map fst t) <-> exists f types, In f fs /\ f_private f = false /\ Forall2 unranked (f_results f) types /\ consume_name types = Some n) /\
      (forall n v, In (n, v) t -> consume_name v = Some n)
  | None => ~ Forall acceptable fs
  end.
Proof.
  assert (W : well_kept [] []).
  { split; [constructor|]. split; [|intros n v []]. intros n. split; [intros []|]. intros (f & ty & [] & _). }
  assert (H : match munge fs with Some (t', ms') => Forall acceptable fs /\ well_kept fs t' /\ Forall2 rewritten fs ms' | None => ~ Forall acceptable fs end)
    by exact (munge_steps fs [] [] [] W (Forall2_nil _)).
  destruct (munge fs) as [(t, ms)|]; [|exact H].
  destruct H as (A & (B1 & B2 & B3) & C). auto.
Qed.

(** ** Loading *)
Lemma foldM_snoc {A S} (f : S -> A -> option S) l x s : foldM f (l ++ [x]) s = obind (foldM f l s) (fun s => f s x).
Proof. revert s. induction l as [|y l IH]; intros s; cbn [List.app foldM]. - cbn. destruct (f s x); reflexivity. - destruct (f s y); cbn [obind]; [apply IH|reflexivity]. Qed.
Definition registered (n : string) (p : string * list (option ctype)) : Prop := exists ret, get_ctype_func n = Some (snd p, ret) /\ fst p = n.
Definition load_steps (l : list string) : option invoker :=
  foldM (fun inv n => do (cs, ret) <- get_ctype_func n; Some {| i_registered := i_registered inv ++ [(n, cs)]; i_ret_types := ret |})
    l {| i_registered := []; i_ret_types := [] |}.
Lemma load_steps_spec l : Forall (fun n => get_ctype_func n <> None) l ->
  exists inv, load_steps l = Some inv /\ Forall2 registered l (i_registered inv) /\
    (forall a n, l = a ++ [n] -> exists cs, get_ctype_func n = Some (cs, i_ret_types inv)).
Proof.
  induction l as [|x l IH] using rev_ind; intros A.
  - eexists. split; [reflexivity|]. split; [constructor|]. intros [|] n X; discriminate.
  - apply Forall_app in A as (A & B). specialize (IH A) as (inv & E & R & _). inversion B as [|? ? B1 _]; subst.
    unfold load_steps in *. rewrite foldM_snoc, E. cbn [obind]. destruct (get_ctype_func x) as [(cs, ret)|] eqn:G; [|congruence].
    cbn [obind]. eexists. split; [reflexivity|]. cbn [i_registered i_ret_types]. split.
    + apply Forall2_app; [exact R|]. constructor; [|constructor]. exists ret. auto.
    + intros a n X. apply app_inj_tail in X as (_ & <-). eauto.
Qed.
Lemma load_steps_none l : load_steps l <> None -> Forall (fun n => get_ctype_func n <> None) l.
Proof.
  induction l as [|x l IH] using rev_ind; intros H; [constructor|]. unfold load_steps in *. rewrite foldM_snoc in H.
  destruct (foldM _ l _) as [inv|]; [|exfalso; apply H; reflexivity]. cbn [obind] in H. apply Forall_app. split; [apply IH; discriminate|].
  constructor; [|constructor]. intros X. rewrite X in H. apply H. reflexivity.
Qed.
Lemma sorted_greatest n : forall l, StronglySorted slt l -> greatest n l -> exists a, l = a ++ [n].
Proof.
  induction l as [|x l IH]; intros S (I & G); [destruct I|]. inversion S as [|? ? S1 S2]; subst. destruct l as [|y l].
  - destruct I as [->|[]]. exists []. reflexivity.
  - destruct (String.eqb_spec x n) as [->|N].
    + exfalso. inversion S2 as [|? ? S3 _]; subst. destruct (G y) as [->|X]; [cbn; auto|rewrite slt_irrefl in S3; discriminate|].
      pose proof (slt_trans _ _ _ S3 X) as Y. rewrite slt_irrefl in Y. discriminate.
    + destruct IH as (a & Ea); [exact S1| |exists (x :: a); cbn; congruence]. split; [destruct I as [X|X]; [congruence|exact X]|].
      intros k K. apply G. right. exact K.
Qed.
Lemma returnable_name ts n : Forall returnable ts -> ts <> [] -> consume_name (map abi ts) = Some n ->
  String.prefix PREFIX n = true /\ exists ws rs, Forall2 (fun t p => known t (fst p) (snd p)) ts (combine ws rs) /\ length ws = length ts /\ length rs = length ts /\
    get_ctype_func n = Some (map ctype_of rs, ws).
Proof.
  intros A N H. destruct (known_all ts A) as (ws & rs & K & L1 & L2 & V & P & U). apply consume_name_words in H as (ws' & H & ->).
  assert (ws' = ws) by congruence. subst ws'. destruct ws as [|w ws]; [destruct ts; [congruence|discriminate]|].
  split; [apply prefix_consumer|]. exists (w :: ws), rs. split; [exact K|]. split; [exact L1|]. split; [exact L2|].
  unfold get_ctype_func. rewrite drop_prefix. inversion U. rewrite split_words by assumption. rewrite P. reflexivity.
Qed.
Lemma empty_name : consume_name (map abi []) = Some "refbackend_consume_func_return" /\ String.prefix PREFIX "refbackend_consume_func_return" = false.
Proof. split; reflexivity. Qed.

Definition public_results (fs : list func) (ts : list rty) : Prop := exists f, In f fs /\ f_private f = false /\ f_results f = ts.
Definition ordinary (fs : list func) : Prop := Forall (fun f => String.prefix PREFIX (f_name f) = false) fs /\ NoDup (map f_name fs).
Lemma symbols_filter fs t ms : Forall2 rewritten fs ms -> Forall (fun f => String.prefix PREFIX (f_name f) = false) fs ->
  get_return_funcs (symbols (t, ms)) = filter (fun n => String.prefix PREFIX n) (map fst t).
Proof.
  intros R O. unfold get_return_funcs, symbols. cbn [fst snd]. rewrite filter_app.
  assert (E : filter (fun n => String.prefix PREFIX n) (map m_name ms) = []).
  { revert O. induction R as [|f m fs ms (N & _) _ IH]; intros O; [reflexivity|]. inversion O as [|? ? O1 O2]; subst.
    cbn [map filter]. rewrite N, O1. auto. }
  rewrite E, app_nil_r. reflexivity.
Qed.
Lemma filter_last {A} (f : A -> bool) l x : f x = true -> filter f (l ++ [x]) = filter f l ++ [x].
Proof. intros H. rewrite filter_app. cbn. rewrite H. reflexivity. Qed.
Lemma loaded fs t ms : munge fs = Some (t, ms) -> ordinary fs -> (forall ts, public_results fs ts -> Forall returnable ts) ->
  exists inv, load (symbols (t, ms)) = Some inv /\
    Forall2 registered (filter (fun n => String.prefix PREFIX n) (map fst t)) (i_registered inv) /\
    (forall n, greatest n (map fst t) -> String.prefix PREFIX n = true -> exists cs, get_ctype_func n = Some (cs, i_ret_types inv)).
Proof.
  intros M (O & _) A. pose proof (C79_pass fs) as P. rewrite M in P. destruct P as (_ & R & S & K & _).
  unfold load. rewrite (symbols_filter fs t ms R O).
  assert (F : Forall (fun n => get_ctype_func n <> None) (filter (fun n => String.prefix PREFIX n) (map fst t))).
  { apply Forall_forall. intros n I. apply filter_In in I as (I & X). apply K in I as (f & ty & F1 & F2 & F3 & F4). apply unranked_abis in F3 as ->.
    destruct (f_results f) as [|r rs] eqn:Er; [destruct empty_name as (E1 & E2); assert (n = "refbackend_consume_func_return") by congruence; subst n; congruence|].
    destruct (returnable_name (r :: rs) n) as (_ & ws & rs' & _ & _ & _ & G); [apply A; exists f; auto|discriminate|exact F4|]. congruence. }
  destruct (load_steps_spec _ F) as (inv & E & Q & L). exists inv. split; [exact E|]. split; [exact Q|].
  intros n G X. destruct (sorted_greatest n _ S G) as (a & Ea). rewrite Ea in L. rewrite filter_last in L by exact X. eapply L. reflexivity.
Qed.
Lemma registered_find l r n : Forall2 registered l r -> In n l -> exists cs ret, find (fun p => String.eqb (fst p) n) r = Some (n, cs) /\ get_ctype_func n = Some (cs, ret).
Proof.
  induction 1 as [|x p l r (ret & G & N) _ IH]; intros I; [destruct I|]. cbn [find]. destruct (String.eqb_spec (fst p) n) as [Y|Y].
  - destruct p as (k, cs). cbn [fst snd] in *. subst. exists cs, ret. auto.
  - destruct I as [->|I]; [congruence|auto].
Qed.
Lemma find_function fs ms f : Forall2 rewritten fs ms -> NoDup (map f_name fs) -> In f fs ->
  exists m, find (fun g => String.eqb (m_name g) (f_name f)) ms = Some m /\ rewritten f m.
Proof.
  induction 1 as [|g m fs ms Rw _ IH]; intros N I; [destruct I|]. cbn [find map] in *. inversion N as [|? ? N1 N2]; subst.
  pose proof Rw as (Nm & _). rewrite Nm. destruct (String.eqb_spec (f_name g) (f_name f)) as [Y|Y].
  - exists m. split; [reflexivity|]. destruct I as [->|I]; [exact Rw|]. exfalso. apply N1. rewrite Y. apply in_map. exact I.
  - destruct I as [->|I]; [congruence|auto].
Qed.
Lemma signed32_id z : -2147483648 <= z < 2147483648 -> signed32 z = z.
Proof. intros H. unfold signed32. rewrite Z.mod_small by lia. lia. Qed.
Lemma receive_known t w r v : known t w r -> has_type v t -> narrow v -> receive (ctype_of r) v = Some v /\
  exists p, consume_one v w = Some p /\ shown v p.
Proof.
  intros K T Nv. assert (A : forall t' s b d, known t w r -> v = RMem t' s b -> r = AnArray d -> t = MemRef s t' \/ t = Unranked t' -> True) by auto.
  clear A. destruct K as [t w c K|t w d s K|t w d K]; inversion T; subst.
  - pose proof K as K'. cbn in K'. unfold narrow in Nv.
    repeat destruct K' as [K'|K']; try (injection K' as <- <- <-); try destruct K';
      (split; [cbn; rewrite ?signed32_id by assumption; reflexivity|eexists; split; [reflexivity|constructor]]).
  - split; [reflexivity|]. exists (PArr d t s0 b). split; [|econstructor; exact K].
    cbn in K. repeat destruct K as [K|K]; try (injection K as <- <- <-); try destruct K; reflexivity.
  - split; [reflexivity|]. exists (PArr d t s b). split; [|econstructor; exact K].
    cbn in K. repeat destruct K as [K|K]; try (injection K as <- <- <-); try destruct K; reflexivity.
Qed.
Lemma receive_all : forall ts ws rs vs, Forall2 (fun t p => known t (fst p) (snd p)) ts (combine ws rs) -> length ws = length ts -> length rs = length ts ->
  Forall2 has_type vs ts -> Forall narrow vs ->
  zipM receive (map ctype_of rs) vs = Some vs /\ exists ps, mapM (fun p => consume_one (fst p) (snd p)) (combine vs ws) = Some ps /\ Forall2 shown vs ps.
Proof.
  induction ts as [|t ts IH]; intros ws rs vs K L1 L2 T Nv; inversion T; subst.
  - destruct rs; [|discriminate]. split; [reflexivity|]. exists []. split; [reflexivity|constructor].
  - destruct ws as [|w ws]; [discriminate|]. destruct rs as [|r rs]; [discriminate|]. cbn [combine] in *. inversion K; subst. inversion Nv; subst. cbn [fst snd] in *.
    destruct (receive_known t w r x) as (R & p & P & Sh); [assumption|assumption|assumption|].
    destruct (IH ws rs l) as (Z1 & ps & Z2 & Z3); [assumption|cbn in *; lia|cbn in *; lia|assumption|assumption|].
    cbn [map zipM mapM combine]. cbn [fst snd]. rewrite R, Z1, P, Z2. cbn [obind]. split; [reflexivity|]. exists (p :: ps). split; [reflexivity|constructor; assumption].
Qed.
Lemma packed_total ps : packed ps (match ps with [v] => One v | _ => Tuple ps end).
Proof. destruct ps as [|v [|]]; reflexivity. Qed.

(** A public function whose callback has the greatest name returns exactly its values: numbers that fit a C int, arrays of the dtype
    of their elements, one value bare. *)
Theorem C79_last_signature fs t ms f n :
  munge fs = Some (t, ms) -> ordinary fs -> (forall ts, public_results fs ts -> Forall returnable ts) ->
  In f fs -> f_private f = false -> f_results f <> [] -> consume_name (map abi (f_results f)) = Some n -> greatest n (map fst t) ->
  exists inv, load (symbols (t, ms)) = Some inv /\
    forall body args vs, Forall (fun a => In (fst (fst a)) shared_dtypes) args -> body (f_name f) args = Some vs ->
      Forall2 has_type vs (f_results f) -> Forall narrow vs ->
      exists ps r, invoke body (t, ms) inv (f_name f) args = Some r /\ Forall2 shown vs ps /\ packed ps r.
Proof.
  intros M O A I Pf Ne Nm G. destruct (loaded fs t ms M O A) as (inv & E & Q & L). exists inv. split; [exact E|].
  intros body args vs Ar B T Nv. destruct (returnable_name _ n (A _ (ex_intro _ f (conj I (conj Pf eq_refl)))) Ne Nm) as (Px & ws & rs & K & L1 & L2 & C).
  destruct (L n G Px) as (cs & C'). assert (i_ret_types inv = ws) as Hw by congruence.
  pose proof (C79_pass fs) as P. rewrite M in P. destruct P as (_ & R & _ & Ks & _).
  destruct (find_function fs ms f R (proj2 O) I) as (m & F & (_ & Pm & Rw)). rewrite Pf in Rw, Pm. destruct Rw as (_ & _ & ty & n' & U & N' & Co).
  apply unranked_abis in U as ->. assert (n' = n) by congruence. subst n'.
  destruct (registered_find _ _ n Q) as (cs' & ret & Fi & Ge); [apply filter_In; split; [apply (proj1 G)|exact Px]|].
  assert (cs' = map ctype_of rs) by congruence. subst cs'.
  destruct (receive_all _ _ _ vs K L1 L2 T Nv) as (Z1 & ps & Z2 & Z3).
  exists ps, (match ps with [v] => One v | _ => Tuple ps end). split; [|split; [exact Z3|apply packed_total]].
  unfold invoke. cbn [snd]. replace (forallb (fun a => supported_arg (fst (fst a))) args) with true.
  2:{ symmetry. apply forallb_forall. intros a Ia. rewrite Forall_forall in Ar. specialize (Ar a Ia). cbn in Ar. destruct (fst (fst a)); try reflexivity; intuition discriminate. }
  cbn [guard obind]. rewrite F. cbn [obind]. rewrite Pm. cbn [negb guard obind]. rewrite Co. cbn [obind]. rewrite B. cbn [obind]. rewrite Fi. cbn [obind snd].
  rewrite Z1. cbn [obind]. unfold consume. rewrite Hw, Z2. reflexivity.
Qed.

(** So when all the public functions return the same types, every one of them is called faithfully. *)
Theorem C79_one_signature fs t ms f ts :
  munge fs = Some (t, ms) -> ordinary fs -> Forall returnable ts -> ts <> [] ->
  (forall g, In g fs -> f_private g = false -> map abi (f_results g) = map abi ts) ->
  In f fs -> f_private f = false -> Forall returnable (f_results f) ->
  exists inv, load (symbols (t, ms)) = Some inv /\
    forall body args vs, Forall (fun a => In (fst (fst a)) shared_dtypes) args -> body (f_name f) args = Some vs ->
      Forall2 has_type vs (f_results f) -> Forall narrow vs ->
      exists ps r, invoke body (t, ms) inv (f_name f) args = Some r /\ Forall2 shown vs ps /\ packed ps r.
Proof.
  intros M O A Ne Sm I Pf _. pose proof (C79_pass fs) as P. rewrite M in P. destruct P as (_ & R & S & K & _).
  assert (Ab : forall l, map abi l = map abi ts -> Forall returnable l).
  { clear - A. induction A as [|t ts (w & r & H) A IH]; intros [|x l] E; try discriminate; constructor.
    - cbn in E. assert (X : abi x = abi t) by congruence. inversion H; subst; destruct x; try discriminate; cbn in X; injection X as <-; eexists; eexists; econstructor; eassumption.
    - apply IH. cbn in E. congruence. }
  destruct (known_all ts A) as (ws & rs & _ & _ & _ & V & _). assert (Nm : consume_name (map abi ts) = Some (consumer_of ws)) by (apply consume_name_words; eauto).
  apply (C79_last_signature fs t ms f (consumer_of ws)); auto.
  - intros l (g & G1 & G2 & <-). auto.
  - intros E. specialize (Sm f I Pf). rewrite E in Sm. destruct ts; [congruence|discriminate].
  - rewrite (Sm f I Pf). exact Nm.
  - split.
    + apply K. exists f, (map abi (f_results f)). split; [exact I|]. split; [exact Pf|]. split; [apply unranked_abis; reflexivity|]. rewrite (Sm f I Pf). exact Nm.
    + intros k Ik. apply K in Ik as (g & ty & G1 & G2 & G3 & G4). apply unranked_abis in G3 as ->. rewrite (Sm g G1 G2) in G4. left. congruence.
Qed.

(** A module loads exactly when the words of every declared callback with results are known. *)
Theorem C79_loads names : (exists inv, load names = Some inv) <->
  forall n, In n names -> String.prefix PREFIX n = true -> Forall (fun w => parameter_ctype w <> None) (split (drop (String.length PREFIX) n)).
Proof.
  assert (G : forall n, get_ctype_func n <> None <-> Forall (fun w => parameter_ctype w <> None) (split (drop (String.length PREFIX) n))).
  { intros n. unfold get_ctype_func. generalize (split (drop (String.length PREFIX) n)). intros l.
    assert (X : mapM parameter_ctype l <> None <-> Forall (fun w => parameter_ctype w <> None) l).
    { induction l as [|w l IH]; [split; [constructor|discriminate]|]. cbn [mapM]. destruct (parameter_ctype w) eqn:Y; cbn [obind].
      - destruct (mapM parameter_ctype l); cbn [obind].
        + split; [|discriminate]. intros _. constructor; [congruence|]. apply IH. discriminate.
        + split; [congruence|]. intros H. inversion H; subst. exfalso. apply IH; auto.
      - split; [congruence|]. intros H. inversion H; congruence. }
    rewrite <- X. destruct (mapM parameter_ctype l); cbn [obind]; split; congruence. }
  split.
  - intros (inv & E) n I P. apply G. assert (F := load_steps_none (get_return_funcs names)). unfold load_steps in F. unfold load in E. rewrite E in F.
    specialize (F ltac:(discriminate)). rewrite Forall_forall in F. apply F. apply filter_In. auto.
  - intros H. destruct (load_steps_spec (get_return_funcs names)) as (inv & E & _); [|exists inv; exact E].
    apply Forall_forall. intros n I. apply filter_In in I as (I & P). apply G. auto.
Qed.

(** *** Where calls go wrong *)
Definition constant_body (vs : list (string * list rv)) (n : string) (args : list array) : option (list rv) :=
  match find (fun p => String.eqb (fst p) n) vs with Some p => Some (snd p) | None => None end.
Definition call (fs : list func) (vs : list (string * list rv)) (n : string) (args : list array) : option result :=
  do m <- munge fs; do inv <- load (symbols m); invoke (constant_body vs) m inv n args.
Definition fn (n : string) (args results : list rty) : func := {| f_name := n; f_private := false; f_args := args; f_results := results |}.

(** Two public functions with different result types: the bytes of one's floats are read as 64-bit integers. *)
Theorem C79_two_signatures_refuted :
  let fs := [fn "f" [] [MemRef [2] (FloatT F32)]; fn "g" [] [MemRef [2] (IntT 64 Signless)]] in
  Forall (fun f => Forall returnable (f_results f)) fs /\
  call fs [("f", [RMem (FloatT F32) [2] [3; 4]]); ("g", [])] "f" [] = Some (One (PArr Long (FloatT F32) [2] [3; 4])) /\
  ~ shown (RMem (FloatT F32) [2] [3; 4]) (PArr Long (FloatT F32) [2] [3; 4]).
Proof.
  intros fs. split; [|split; [vm_compute; reflexivity|]].
  - unfold fs. repeat constructor; [exists "mrf32", (AnArray Float)|exists "mri64", (AnArray Long)]; constructor; cbn; tauto.
  - intros H. inversion H; subst. cbn in *. intuition discriminate.
Qed.
(** ... and results beyond the other function's are dropped. *)
Theorem C79_two_signatures_dropped_refuted :
  let a := MemRef [1] (FloatT F32) in let fs := [fn "f" [] [a; a]; fn "g" [] [MemRef [1] (FloatT F64)]] in
  call fs [("f", [RMem (FloatT F32) [1] [3]; RMem (FloatT F32) [1] [4]])] "f" [] = Some (One (PArr Double (FloatT F32) [1] [3])).
Proof. vm_compute. reflexivity. Qed.
(** Results of bfloat16 have the name of float16 and are read as such. *)
Theorem C79_bfloat16_refuted :
  consume_name [Unranked (FloatT BF16)] = consume_name [Unranked (FloatT F16)] /\
  call [fn "f" [] [MemRef [1] (FloatT BF16)]] [("f", [RMem (FloatT BF16) [1] [5]])] "f" [] = Some (One (PArr Half (FloatT BF16) [1] [5])).
Proof. split; vm_compute; reflexivity. Qed.
(** A function without results cannot be called, whatever else is in the module. *)
Theorem C79_no_results_refuted body fs t ms f inv args : munge fs = Some (t, ms) -> ordinary fs -> In f fs -> f_private f = false -> f_results f = [] ->
  load (symbols (t, ms)) = Some inv -> invoke body (t, ms) inv (f_name f) args = None.
Proof.
  intros M O I Pf Er Ld. pose proof (C79_pass fs) as P. rewrite M in P. destruct P as (_ & R & _ & Ks & _).
  destruct (find_function fs ms f R (proj2 O) I) as (m & F & (_ & Pm & Rw)). rewrite Pf in Rw, Pm. destruct Rw as (_ & _ & ty & n' & U & N' & Co).
  apply unranked_abis in U as ->. rewrite Er in N'. injection N' as <-.
  unfold invoke. match goal with |- context [guard (forallb ?g ?a)] => destruct (forallb g a) end; [|reflexivity]. cbn [guard obind snd]. rewrite F. cbn [obind]. rewrite Pm. cbn [negb guard obind]. rewrite Co. cbn [obind].
  destruct (body (f_name f) args); [|reflexivity]. cbn [obind].
  assert (X : find (fun p => String.eqb (fst p) (accumulate ["refbackend_consume_func_return"])) (i_registered inv) = None); [|rewrite X; reflexivity].
  unfold load in Ld. assert (Fo := load_steps_none (get_return_funcs (symbols (t, ms)))). unfold load_steps in Fo. rewrite Ld in Fo. specialize (Fo ltac:(discriminate)).
  destruct (load_steps_spec _ Fo) as (inv' & E & Q & _). unfold load_steps in E. assert (inv' = inv) by congruence. subst inv'.
  assert (Pr : Forall (fun n => String.prefix PREFIX n = true) (get_return_funcs (symbols (t, ms)))) by (apply Forall_forall; intros n H; apply filter_In in H; tauto).
  clear - Q Pr. induction Q as [|n p l r (ret & _ & N) _ IH]; [reflexivity|]. inversion Pr as [|? ? P1 P2]; subst. cbn [find].
  destruct (String.eqb_spec (fst p) (accumulate ["refbackend_consume_func_return"])) as [Y|Y]; [rewrite Y in P1; discriminate|auto].
Qed.
(** A 64-bit number is cut to 32 bits: two to the power 32 comes back as 0. *)
Theorem C79_wide_numbers_refuted :
  call [fn "f" [] [Elem (IntT 64 Signless)]] [("f", [RNum (IntT 64 Signless) (2 ^ 32)])] "f" [] = Some (One (PNum 0)).
Proof. vm_compute. reflexivity. Qed.
(** Numbers of 32 bits, and arrays of signed bytes though they are accepted as arguments, are not returned. *)
Theorem C79_other_types_refuted :
  (exists m, munge [fn "f" [] [Elem (IntT 32 Signless)]] = Some m /\ load (symbols m) = None) /\
  (argument_type (MemRef [1] (IntT 8 Signed)) /\ munge [fn "f" [MemRef [1] (IntT 8 Signed)] [MemRef [1] (IntT 8 Signed)]] = None).
Proof.
  split; [eexists; split; vm_compute; reflexivity|]. split; [|vm_compute; reflexivity]. exists [1], (IntT 8 Signed). cbn. auto 12.
Qed.
(** Nothing compares the arrays of a call with the function's arguments. *)
Theorem C79_arguments_unchecked_refuted body m inv name args args' vs :
  Forall (fun a => In (fst (fst a)) shared_dtypes) args -> Forall (fun a => In (fst (fst a)) shared_dtypes) args' ->
  body name args = Some vs -> body name args' = Some vs -> invoke body m inv name args = invoke body m inv name args'.
Proof.
  assert (X : forall l : list array, Forall (fun a => In (fst (fst a)) shared_dtypes) l -> forallb (fun a => supported_arg (fst (fst a))) l = true).
  { intros l H. apply forallb_forall. intros a Ia. rewrite Forall_forall in H. specialize (H a Ia). cbn in H. destruct (fst (fst a)); try reflexivity; intuition discriminate. }
  intros A B Ha Hb. unfold invoke. rewrite (X _ A), (X _ B). rewrite Ha, Hb. reflexivity.
Qed.
(** Arrays of other dtypes are refused. *)
Theorem C79_argument_dtypes body m inv name args r : invoke body m inv name args = Some r -> Forall (fun a => In (fst (fst a)) shared_dtypes) args.
Proof.
  unfold invoke. match goal with |- context [guard (forallb ?g ?a)] => destruct (forallb g a) eqn:F end; [|discriminate]. intros _. rewrite forallb_forall in F. apply Forall_forall. intros a I. specialize (F a I).
  destruct (fst (fst a)); cbn in *; try discriminate; tauto.
Qed.
Example C79_nonvacuous :
  let fs := [fn "f" [MemRef [2; -1] (FloatT F32)] [MemRef [2] (FloatT F32); Elem (IntT 64 Signless)]; fn "g" [] [MemRef [2] (FloatT F32)];
             {| f_name := "h"; f_private := true; f_args := [Elem (IntT 3 Signed)]; f_results := [] |}] in
  option_map symbols (munge fs) = Some ["refbackend_consume_func_return_mrf32"; "refbackend_consume_func_return_mrf32_i64"; "f"; "g"; "h"] /\
  call fs [("f", [RMem (FloatT F32) [2] [3; 4]; RNum (IntT 64 Signless) (-5)])] "f" [(Float, [2; 7], [])] = Some (Tuple [PArr Float (FloatT F32) [2] [3; 4]; PNum (-5)]) /\
  call fs [("f", [])] "h" [] = None /\ call fs [] "f" [(BFloat16, [], [])] = None.
Proof. repeat split; vm_compute; reflexivity. Qed.

(** ** Structures *)
Section ObjInd.
  Variable P : obj -> Prop.
  Hypothesis Htensor : forall d x, P (OTensor d x).
  Hypothesis Harray : forall d x, P (OArray d x).
  Hypothesis Htuple : forall l, Forall P l -> P (OTuple l).
  Hypothesis Hlist : forall l, Forall P l -> P (OList l).
  Hypothesis Hdict : forall l, Forall (fun p => P (snd p)) l -> P (ODict l).
  Hypothesis Hstr : forall s, P (OStr s).
  Hypothesis Hfloat : forall z, P (OFloat z).
  Hypothesis Hint : forall z, P (OInt z).
  Hypothesis Hbool : forall b, P (OBool b).
  Hypothesis Hnone : P ONone.
  Fixpoint obj_rect' (o : obj) : P o :=
    match o with
    | OTensor d x => Htensor d x | OArray d x => Harray d x
    | OTuple l => Htuple l ((fix go l : Forall P l := match l with [] => Forall_nil _ | x :: r => Forall_cons x (obj_rect' x) (go r) end) l)
    | OList l => Hlist l ((fix go l : Forall P l := match l with [] => Forall_nil _ | x :: r => Forall_cons x (obj_rect' x) (go r) end) l)
    | ODict l => Hdict l ((fix go l : Forall (fun p => P (snd p)) l := match l with [] => Forall_nil _ | x :: r => Forall_cons x (obj_rect' (snd x)) (go r) end) l)
    | OStr s => Hstr s | OFloat z => Hfloat z | OInt z => Hint z | OBool b => Hbool b | ONone => Hnone
    end.
End ObjInd.
Definition structured (o : obj) : bool := match o with OTuple _ | OList _ | ODict _ => true | _ => false end.
Lemma go_mapM (f : obj -> option obj) l :
  (fix go l := match l with [] => Some [] | x :: r => do y <- f x; do ys <- go r; Some (y :: ys) end) l = mapM f l.
Proof. induction l as [|x l IH]; [reflexivity|]. cbn [mapM]. rewrite <- IH. reflexivity. Qed.
Lemma traverse_tuple lf l : traverse lf (OTuple l) = option_map OTuple (mapM (traverse lf) l).
Proof. cbn [traverse]. rewrite go_mapM. destruct (mapM (traverse lf) l); reflexivity. Qed.
Lemma traverse_list lf l : traverse lf (OList l) = option_map OList (mapM (traverse lf) l).
Proof. cbn [traverse]. rewrite go_mapM. destruct (mapM (traverse lf) l); reflexivity. Qed.
Lemma traverse_dict lf l : traverse lf (ODict l) = option_map (fun r => ODict (combine (map fst l) r)) (mapM (traverse lf) (map snd l)).
Proof.
  cbn [traverse]. match goal with |- obind (?g l) _ = _ => assert (E : g l = option_map (combine (map fst l)) (mapM (traverse lf) (map snd l))) end.
  { induction l as [|(k, x) l IH]; [reflexivity|]. cbn [map mapM fst snd combine]. destruct (traverse lf x); cbn [obind]; [|reflexivity].
    rewrite IH. destruct (mapM (traverse lf) (map snd l)); reflexivity. }
  rewrite E. destruct (mapM (traverse lf) (map snd l)); reflexivity.
Qed.
Lemma mapM_rel (f : obj -> option obj) (R : obj -> obj -> Prop) l : Forall (fun x => forall y, f x = Some y <-> R x y) l ->
  forall r, mapM f l = Some r <-> Forall2 R l r.
Proof.
  induction 1 as [|x l H _ IH]; intros r; cbn [mapM].
  - split; [intros [= <-]; constructor|]. intros X. inversion X. reflexivity.
  - destruct (f x) as [y|] eqn:E; cbn [obind].
    + destruct (mapM f l) as [ys|] eqn:E'; cbn [obind].
      * split; [intros [= <-]; constructor; [apply H; reflexivity|apply IH; reflexivity]|].
        intros X. inversion X as [|? y' ? ys' X1 X2]; subst. apply H in X1. apply IH in X2. congruence.
      * split; [discriminate|]. intros X. inversion X as [|? y' ? ys' X1 X2]; subst. apply IH in X2. discriminate.
    + split; [discriminate|]. intros X. inversion X as [|? y' ? ys' X1 X2]; subst. apply H in X1. discriminate.
Qed.
Lemma combine_fst_snd {A B} (l : list (A * B)) : combine (map fst l) (map snd l) = l.
Proof. induction l as [|(a, b) l IH]; cbn; congruence. Qed.
Lemma combine_map_fst {A B} (ks : list A) : forall (l : list B), length ks = length l -> map fst (combine ks l) = ks.
Proof. induction ks as [|k ks IH]; intros [|x l] H; cbn in *; try discriminate; [reflexivity|]. rewrite IH by lia. reflexivity. Qed.
Lemma combine_map_snd {A B} (ks : list A) : forall (l : list B), length ks = length l -> map snd (combine ks l) = l.
Proof. induction ks as [|k ks IH]; intros [|x l] H; cbn in *; try discriminate; [reflexivity|]. rewrite IH by lia. reflexivity. Qed.
Lemma traverse_converted lf (R : obj -> obj -> Prop) : (forall o o', structured o = false -> (lf o = Some o' <-> R o o')) -> (forall o o', R o o' -> structured o = false) ->
  forall o o', traverse lf o = Some o' <-> converted R o o'.
Proof.
  intros HL HS.
  assert (Leaf : forall o, structured o = false -> forall o', lf o = Some o' <-> converted R o o').
  { intros o So o'. rewrite (HL o o' So). split; [apply conv_leaf|]. intros C. inversion C; subst; [assumption|discriminate..]. }
  induction o using obj_rect'; intros o'; try (apply Leaf; reflexivity).
  - rewrite traverse_tuple. pose proof (mapM_rel _ _ l H) as M. split.
    + destruct (mapM (traverse lf) l) as [r|]; [|discriminate]. intros [= <-]. apply conv_tuple. apply M. reflexivity.
    + intros C. inversion C as [? ? C1|? ? C1| |]; subst; [apply HS in C1; discriminate|]. apply M in C1. rewrite C1. reflexivity.
  - rewrite traverse_list. pose proof (mapM_rel _ _ l H) as M. split.
    + destruct (mapM (traverse lf) l) as [r|]; [|discriminate]. intros [= <-]. apply conv_list. apply M. reflexivity.
    + intros C. inversion C as [? ? C1| |? ? C1|]; subst; [apply HS in C1; discriminate|]. apply M in C1. rewrite C1. reflexivity.
  - rewrite traverse_dict. assert (M : forall r, mapM (traverse lf) (map snd l) = Some r <-> Forall2 (converted R) (map snd l) r).
    { apply mapM_rel. apply Forall_map. exact H. }
    split.
    + destruct (mapM (traverse lf) (map snd l)) as [r|]; [|discriminate]. intros [= <-].
      replace (ODict l) with (ODict (combine (map fst l) (map snd l))) by (rewrite combine_fst_snd; reflexivity).
      apply conv_dict; [apply M; reflexivity|rewrite !map_length; reflexivity].
    + intros C. inversion C as [? ? C1| | |ks l' r C1 C2]; subst; [apply HS in C1; discriminate|].
      rewrite combine_map_snd in M |- * by assumption. apply M in C1. rewrite C1. cbn [option_map]. rewrite combine_map_fst by assumption. reflexivity.
Qed.
Lemma numpy_dtype_shared d : numpy_dtype d = true <-> In d shared_dtypes.
Proof. destruct d; cbn; intuition discriminate. Qed.
Lemma flat o o' : tensor_array o o' -> structured o = false /\ structured o' = false.
Proof. intros [d x H|x H]; [auto|]. destruct H; auto. Qed.

(** Structures of tensors become structures of arrays, element by element, *)
Theorem C80_to_numpy o o' : to_numpy o = Some o' <-> converted tensor_array o o'.
Proof.
  apply traverse_converted; [|intros; apply (flat o0 o'0); assumption]. clear. intros o o' So. split.
  - destruct o; cbn; try discriminate; [|intros [= <-]; apply ta_plain; constructor..].
    destruct (numpy_dtype d) eqn:D; [|discriminate]. intros [= <-]. apply ta_data, numpy_dtype_shared. exact D.
  - intros [d x H|x H]; cbn; [apply numpy_dtype_shared in H; rewrite H; reflexivity|]. destruct H; reflexivity.
Qed.
(** ... and back, *)
Theorem C80_from_numpy o o' : from_numpy o = Some o' <-> converted (fun a b => tensor_array b a) o o'.
Proof.
  apply traverse_converted; [|intros; apply (flat o'0 o0); assumption]. clear. intros o o' So. split.
  - destruct o; cbn; try discriminate; [|intros [= <-]; apply ta_plain; constructor..].
    destruct (numpy_dtype d) eqn:D; [|discriminate]. intros [= <-]. apply ta_data, numpy_dtype_shared. exact D.
  - intros [d x H|x H]; cbn; [apply numpy_dtype_shared in H; rewrite H; reflexivity|]. destruct H; reflexivity.
Qed.
Lemma converted_flip R : forall o o', converted R o o' -> converted (fun a b => R b a) o' o.
Proof.
  fix IH 3. intros o o' [x y H|l r H|l r H|ks l r H L].
  - apply conv_leaf. exact H.
  - apply conv_tuple. revert l r H. fix go 3. intros l r [|a b l' r' H1 H2]; constructor; [apply IH; exact H1|apply go; exact H2].
  - apply conv_list. revert l r H. fix go 3. intros l r [|a b l' r' H1 H2]; constructor; [apply IH; exact H1|apply go; exact H2].
  - apply conv_dict; [|rewrite L; apply (Forall2_len _ _ _ _ _ H)]. clear L. revert l r H. fix go 3.
    intros l r [|a b l' r' H1 H2]; constructor; [apply IH; exact H1|apply go; exact H2].
Qed.
(** ... each undoing the other. *)
Theorem C80_round_trip o o' : to_numpy o = Some o' <-> from_numpy o' = Some o.
Proof.
  rewrite C80_to_numpy, C80_from_numpy. split.
  - apply converted_flip.
  - intros H. apply converted_flip in H. exact H.
Qed.
(** Exactly the structures of tensors of numpy dtypes, strings and numbers are converted. *)
Theorem C80_convertible o : (exists o', to_numpy o = Some o') <-> tensors o.
Proof.
  split.
  - intros (o' & H). apply C80_to_numpy in H. revert o o' H. fix IH 3. intros o o' [x y H|l r H|l r H|ks l r H L].
    + destruct H as [d x H|x H]; [apply ts_data; exact H|apply ts_plain; exact H].
    + apply ts_tuple. revert l r H. fix go 3. intros l r [|a b l' r' H1 H2]; constructor; [eapply IH; exact H1|eapply go; exact H2].
    + apply ts_list. revert l r H. fix go 3. intros l r [|a b l' r' H1 H2]; constructor; [eapply IH; exact H1|eapply go; exact H2].
    + apply ts_dict; [|exact L]. clear L. revert l r H. fix go 3. intros l r [|a b l' r' H1 H2]; constructor; [eapply IH; exact H1|eapply go; exact H2].
  - intros H.
    assert (G : exists o', converted tensor_array o o').
    { revert o H. fix IH 2. intros o [d x H|x H|l H|l H|ks l H L].
      - exists (OArray d x). apply conv_leaf, ta_data, H.
      - exists x. apply conv_leaf, ta_plain, H.
      - assert (X : exists r, Forall2 (converted tensor_array) l r); [|destruct X as (r & X); exists (OTuple r); apply conv_tuple, X].
        revert l H. fix go 2. intros l [|a l' H1 H2]; [exists []; constructor|]. destruct (IH a H1) as (b & B). destruct (go l' H2) as (r & R). exists (b :: r). constructor; assumption.
      - assert (X : exists r, Forall2 (converted tensor_array) l r); [|destruct X as (r & X); exists (OList r); apply conv_list, X].
        revert l H. fix go 2. intros l [|a l' H1 H2]; [exists []; constructor|]. destruct (IH a H1) as (b & B). destruct (go l' H2) as (r & R). exists (b :: r). constructor; assumption.
      - assert (X : exists r, Forall2 (converted tensor_array) l r); [|destruct X as (r & X); exists (ODict (combine ks r)); apply conv_dict; assumption].
        clear L. revert l H. fix go 2. intros l [|a l' H1 H2]; [exists []; constructor|]. destruct (IH a H1) as (b & B). destruct (go l' H2) as (r & R). exists (b :: r). constructor; assumption. }
    destruct G as (o' & G). exists o'. apply C80_to_numpy. exact G.
Qed.
Lemma refine_tuple l : refine_result_type (OTuple l) = option_map OTuple (mapM refine_result_type l).
Proof. cbn [refine_result_type]. rewrite go_mapM. destruct (mapM refine_result_type l); reflexivity. Qed.
(** The results of compiled functions are converted like other structures, when they are arrays, numbers and tuples; others are refused. *)
Theorem C80_results o o' : refine_result_type o = Some o' <-> produced o /\ from_numpy o = Some o'.
Proof.
  revert o'. induction o using obj_rect'; intros o'; try (cbn; split; [discriminate|intros (K & _); inversion K]);
    try (cbn; split; [intros K; split; [constructor|exact K]|tauto]).
  - rewrite refine_tuple. unfold from_numpy. rewrite traverse_tuple. fold from_numpy.
    assert (M : forall r, mapM refine_result_type l = Some r <-> Forall produced l /\ mapM from_numpy l = Some r).
    { induction H as [|x l Hx _ IH]; intros r; cbn [mapM]; [split; [auto|tauto]|]. split.
      - destruct (refine_result_type x) as [y|] eqn:E; [|discriminate]. cbn [obind]. destruct (mapM refine_result_type l) as [ys|] eqn:E'; [|discriminate].
        cbn [obind]. intros [= <-]. destruct (proj1 (Hx y) eq_refl) as (A & B). destruct (proj1 (IH ys) eq_refl) as (C & D). rewrite B. cbn [obind]. rewrite D. split; [constructor; assumption|reflexivity].
      - intros (F & X). inversion F as [|? ? F1 F2]; subst. destruct (from_numpy x) as [y|] eqn:E; [|discriminate]. cbn [obind] in X.
        destruct (mapM from_numpy l) as [ys|] eqn:E'; [|discriminate]. cbn [obind] in X. injection X as <-.
        rewrite (proj2 (Hx y) (conj F1 eq_refl)). cbn [obind]. rewrite (proj2 (IH ys) (conj F2 eq_refl)). reflexivity. }
    split.
    + destruct (mapM refine_result_type l) as [r|]; [|discriminate]. intros [= <-]. destruct (proj1 (M r) eq_refl) as (A & B). rewrite B. split; [constructor; exact A|reflexivity].
    + intros (A & B). destruct (mapM from_numpy l) as [r|] eqn:E; [|discriminate]. injection B as <-. inversion A; subst.
      rewrite (proj2 (M r)); [reflexivity|]. split; [assumption|reflexivity].
Qed.
(** Of a tuple of results, the user's are kept, in order. *)
Theorem C80_user_outputs ks l r : length ks = length l -> (user_outputs ks (OTuple l) = OTuple r <-> picked ks l r).
Proof.
  cbn [user_outputs]. revert l r. induction ks as [|k ks IH]; intros [|x l] r L; try discriminate.
  - cbn. split; [intros [= <-]; constructor|intros H; inversion H; reflexivity].
  - injection L as L. destruct k; cbn [combine filter snd map fst].
    + split.
      * intros [= <-]. constructor. apply IH; [exact L|reflexivity].
      * intros H. inversion H as [|? ? ? ? H1|]; subst. apply IH in H1; [|exact L]. injection H1 as <-. reflexivity.
    + split.
      * intros H. constructor. apply IH; assumption.
      * intros H. inversion H as [| |? ? ? ? H1]; subst. apply IH in H1; assumption.
Qed.
Theorem C80_bare_result ks o : structured o = false -> user_outputs ks o = o.
Proof. destruct o; cbn; try discriminate; reflexivity. Qed.
(** A program with one output, bare without mutation, gives a tuple of one when it also updates a buffer. *)
Theorem C80_one_output_refuted d x y :
  user_outputs [UserOutput] (OTensor d y) = OTensor d y /\ user_outputs [OtherOutput; UserOutput] (OTuple [x; OTensor d y]) = OTuple [OTensor d y].
Proof. split; reflexivity. Qed.
Example C80_nonvacuous :
  let o := OTuple [OTensor Half [3]; OList [OInt 4; OStr "a"; OBool true]; ODict [("k", OTensor Bool [1]); ("l", OFloat 2)]] in
  to_numpy o = Some (OTuple [OArray Half [3]; OList [OInt 4; OStr "a"; OBool true]; ODict [("k", OArray Bool [1]); ("l", OFloat 2)]]) /\
  to_numpy (OTensor BFloat16 [3]) = None /\ to_numpy (OList [ONone]) = None /\ to_numpy (OArray Half [3]) = None /\ from_numpy (OTensor Half [3]) = None /\
  refine_result_type (OTuple [OArray Half [3]; OTuple [OInt 1]]) = Some (OTuple [OTensor Half [3]; OTuple [OInt 1]]) /\
  refine_result_type (OList []) = None /\ user_outputs [OtherOutput; UserOutput] (OList [OInt 1; OInt 2]) = OTuple [OInt 2].
Proof. repeat split; reflexivity. Qed.

(** ** Inputs *)
Lemma like_nth : forall shape axes i k, nth_error (like_shape k shape axes) i =
  option_map (fun d => if existsb (Z.eqb (k + Z.of_nat i)) axes then -1 else d) (nth_error shape i).
Proof.
  induction shape as [|d r IH]; intros axes [|i] k; cbn [like_shape nth_error option_map]; try reflexivity.
  - rewrite Z.add_0_r. reflexivity.
  - rewrite IH. replace (k + 1 + Z.of_nat i) with (k + Z.of_nat (Datatypes.S i)) by lia. reflexivity.
Qed.
(** A placeholder like a tensor has its dtype, and its sizes except at the dynamic axes. *)
Theorem C81_like shape d axes :
  let p := like shape d axes in let l := match axes with Some l => l | None => [] end in
  p_dtype p = d /\ length (p_shape p) = length shape /\
  forall i n, nth_error shape i = Some n ->
    (In (Z.of_nat i) l -> nth_error (p_shape p) i = Some (-1)) /\ (~ In (Z.of_nat i) l -> nth_error (p_shape p) i = Some n).
Proof.
  intros p l. split; [reflexivity|]. split.
  - unfold p, like. cbn [p_shape]. fold l. generalize 0. generalize l. clear. induction shape as [|x r IH]; intros l k; cbn; [reflexivity|]. rewrite IH. reflexivity.
  - intros i n H. unfold p, like. cbn [p_shape]. fold l. rewrite like_nth, H. cbn [option_map]. rewrite Z.add_0_l.
    assert (X : existsb (Z.eqb (Z.of_nat i)) l = true <-> In (Z.of_nat i) l).
    { rewrite existsb_exists. split; [intros (y & Y & E); apply Z.eqb_eq in E as ->; exact Y|intros Y; exists (Z.of_nat i); split; [exact Y|apply Z.eqb_refl]]. }
    destruct (existsb (Z.eqb (Z.of_nat i)) l); split; intros Y; try reflexivity; [exfalso; apply Y, X; reflexivity|apply X in Y; discriminate].
Qed.
(** Axes counted from the end, as elsewhere in PyTorch, are ignored. *)
Theorem C81_negative_axes_refuted shape d axes : Forall (fun a => a < 0) axes -> p_shape (like shape d (Some axes)) = shape.
Proof.
  intros H. unfold like. cbn [p_shape]. assert (G : forall k, 0 <= k -> like_shape k shape axes = shape); [|apply G; lia].
  induction shape as [|x r IH]; intros k K; cbn; [reflexivity|]. rewrite IH by lia.
  destruct (existsb (Z.eqb k) axes) eqn:E; [|reflexivity]. apply existsb_exists in E as (a & A & E). apply Z.eqb_eq in E as ->. rewrite Forall_forall in H. specialize (H a A). lia.
Qed.
Lemma tensor_examples l : forallb (fun e => match e with EOther => false | _ => true end) l = true <-> Forall tensor_example l.
Proof. rewrite forallb_forall, Forall_forall. split; intros H x I; specialize (H x I); destruct x; cbn in *; auto; discriminate || contradiction. Qed.
(** One argument stands for a list of one; only tensors and placeholders are accepted. *)
Theorem C81_arguments a l : canonicalize_args a = Some l <-> Forall tensor_example l /\ (a = ESequence l \/ exists e, a = ESingle e /\ l = [e]).
Proof.
  unfold canonicalize_args. destruct a as [e|s].
  - destruct (forallb _ [e]) eqn:F; cbn [guard obind]; pose proof (tensor_examples [e]) as T; rewrite F in T.
    + split; [intros [= <-]; split; [apply T; reflexivity|right; eauto]|]. intros (_ & [X|(e' & [= <-] & ->)]); [discriminate|reflexivity].
    + split; [discriminate|]. intros (A & [X|(e' & [= <-] & ->)]); [discriminate|]. apply T in A. discriminate.
  - destruct (forallb _ s) eqn:F; cbn [guard obind]; pose proof (tensor_examples s) as T; rewrite F in T.
    + split; [intros [= <-]; split; [apply T; reflexivity|auto]|]. intros (_ & [[= <-]|(e' & X & _)]); [reflexivity|discriminate].
    + split; [discriminate|]. intros (A & [[= <-]|(e' & X & _)]); [|discriminate]. apply T in A. discriminate.
Qed.
(** A method is added once; bare arguments are those of the method "forward". *)
Theorem C81_methods m name a m' : add_method m name a = Some m' <-> ~ In name (map fst m) /\ exists l, canonicalize_args a = Some l /\ m' = m ++ [(name, l)].
Proof.
  unfold add_method. assert (X : existsb (fun p : string * list example => String.eqb (fst p) name) m = true <-> In name (map fst m)).
  { rewrite existsb_exists, in_map_iff. split; intros (p & A & B); exists p; [apply String.eqb_eq in B|subst]; split; auto. apply String.eqb_refl. }
  destruct (existsb _ m); cbn [negb guard obind].
  - split; [discriminate|]. intros (N & _). exfalso. apply N, X. reflexivity.
  - assert (N : ~ In name (map fst m)) by (intros I; apply X in I; discriminate).
    destruct (canonicalize_args a) as [l|]; cbn [obind]; split.
    + intros [= <-]. split; [exact N|]. exists l. auto.
    + intros (_ & l' & [= <-] & ->). reflexivity.
    + discriminate.
    + intros (_ & l' & Y & _). discriminate.
Qed.
Theorem C81_forward a m : get_example_args (inl a) = Some m <-> exists l, canonicalize_args a = Some l /\ m = [("forward", l)].
Proof.
  cbn [get_example_args]. rewrite C81_methods. cbn. split; [intros (_ & H); exact H|intros H; split; [intros []|exact H]].
Qed.
Theorem C81_given_methods m : get_example_args (inr m) = Some m.
Proof. reflexivity. Qed.
Lemma like_same shape d : like shape d None = {| p_shape := shape; p_dtype := d |}.
Proof. unfold like. f_equal. generalize 0. induction shape as [|x r IH]; intros k; cbn; [reflexivity|]. rewrite IH. reflexivity. Qed.
(** The annotation of an example: itself if it is a placeholder, the shape and dtype of a tensor. *)
Theorem C81_annotations m : Forall (fun p => Forall tensor_example (snd p)) m ->
  exists r, get_for_annotation m = Some r /\ Forall2 (fun p q => fst p = fst q /\
    Forall2 (fun e h => match e with EPlaceholder p => h = p | ETensor s d _ => h = {| p_shape := s; p_dtype := d |} | EOther => False end) (snd p) (snd q)) m r.
Proof.
  unfold get_for_annotation. induction 1 as [|(n, l) m H _ (r & E & F)]; [exists []; split; constructor|]. cbn [mapM fst snd] in *.
  assert (G : exists hs, mapM annotation_of l = Some hs /\
    Forall2 (fun e h => match e with EPlaceholder p => h = p | ETensor s d _ => h = {| p_shape := s; p_dtype := d |} | EOther => False end) l hs).
  { clear - H. induction H as [|e l He _ (hs & E & F)]; [exists []; split; constructor|]. cbn [mapM]. destruct e as [s d x|p|]; [| |destruct He].
    - cbn [annotation_of obind]. rewrite E. cbn [obind]. exists (like s d None :: hs). split; [reflexivity|]. constructor; [apply like_same|exact F].
    - cbn [annotation_of obind]. rewrite E. cbn [obind]. exists (p :: hs). split; [reflexivity|]. constructor; [reflexivity|exact F]. }
  destruct G as (hs & G1 & G2). rewrite G1. cbn [obind]. rewrite E. cbn [obind]. exists ((n, hs) :: r). split; [reflexivity|]. constructor; [split; [reflexivity|exact G2]|exact F].
Qed.
Lemma product_prod l : product l = prodZ l.
Proof. reflexivity. Qed.
Definition concrete (e : example) (t : example) : Prop :=
  match e with
  | ETensor _ _ _ => t = e
  | EPlaceholder p => match t with
      | ETensor s d x => agrees s (p_shape p) /\ zlen x = prodZ s /\ Forall (eq 1) x /\
          (forall i, nth_error (p_shape p) i = Some (-1) -> nth_error s i = Some 7) /\ (p_shape p <> [] -> d = p_dtype p)
      | _ => False end
  | EOther => False
  end.
Definition traceable (e : example) : Prop := match e with EPlaceholder p => Forall (fun s => -1 <= s) (p_shape p) | ETensor _ _ _ => True | EOther => False end.
Lemma sevens l : agrees (map (fun s => if s =? -1 then 7 else s) l) l.
Proof. induction l as [|x l IH]; constructor; [|exact IH]. destruct (Z.eqb_spec x (-1)); auto. Qed.
Lemma trace_concrete e : traceable e -> exists t, trace_example true e = Some t /\ concrete e t.
Proof.
  destruct e as [s d x|p|]; cbn [traceable]; intros H; [exists (ETensor s d x); split; reflexivity| |destruct H].
  cbn [trace_example guard obind]. destruct (p_shape p) as [|k r] eqn:E.
  - exists (ETensor [] Long [1]). split; [reflexivity|]. cbn [concrete]. rewrite E. split; [constructor|]. split; [reflexivity|]. split; [repeat constructor|].
    split; [intros [|i] X; discriminate|congruence].
  - remember (map (fun s => if s =? -1 then 7 else s) (k :: r)) as sh eqn:Es.
    assert (P : Forall (fun s => 0 <= s) sh).
    { subst sh. apply Forall_map. eapply Forall_impl; [|exact H]. intros a A. cbv beta in A |- *. destruct (Z.eqb_spec a (-1)); lia. }
    replace (forallb (fun s => 0 <=? s) sh) with true.
    2:{ symmetry. apply forallb_forall. intros a A. rewrite Forall_forall in P. apply Z.leb_le, P, A. }
    destruct sh as [|a sh]; [discriminate|]. cbn [guard obind]. eexists. split; [reflexivity|]. cbn [concrete]. rewrite E. split; [rewrite Es; apply sevens|].
    split; [unfold zlen; rewrite repeat_length, product_prod, Z2Nat.id; [reflexivity|apply prodZ_nonneg; exact P]|].
    split; [apply Forall_forall; intros y Y; apply repeat_spec in Y; congruence|]. split; [|reflexivity].
    intros i X. rewrite Es. rewrite (map_nth_error _ _ _ X). reflexivity.
Qed.
(** For tracing, each placeholder becomes a tensor of ones that agrees with it, 7 standing for unknown sizes; tensors are kept. *)
Theorem C81_traced m : Forall (fun p => Forall traceable (snd p)) m ->
  exists r, get_for_tracing true true m = Some r /\ Forall2 (fun p q => fst p = fst q /\ Forall2 concrete (snd p) (snd q)) m r.
Proof.
  unfold get_for_tracing. induction 1 as [|(n, l) m H _ (r & E & F)]; [exists []; split; constructor|]. cbn [mapM fst snd] in *.
  assert (G : exists ts, mapM (trace_example true) l = Some ts /\ Forall2 concrete l ts).
  { clear - H. induction H as [|e l He _ (ts & E & F)]; [exists []; split; constructor|]. destruct (trace_concrete e He) as (t & T1 & T2).
    cbn [mapM]. rewrite T1. cbn [obind]. rewrite E. cbn [obind]. exists (t :: ts). split; [reflexivity|constructor; assumption]. }
  destruct G as (ts & G1 & G2). rewrite G1. cbn [obind]. rewrite E. cbn [obind]. exists ((n, ts) :: r). split; [reflexivity|]. constructor; [split; [reflexivity|exact G2]|exact F].
Qed.
Theorem C81_not_traced i m : get_for_tracing false i m = Some m.
Proof. reflexivity. Qed.
(** Unless shapes of traces are to be ignored, placeholders are refused. *)
Theorem C81_placeholders_refused m : Forall (fun p => Forall tensor_example (snd p)) m ->
  ((exists r, get_for_tracing true false m = Some r) <-> Forall (fun p => Forall (fun e => match e with ETensor _ _ _ => True | _ => False end) (snd p)) m).
Proof.
  unfold get_for_tracing. induction 1 as [|(n, l) m H _ IH]; [split; [constructor|exists []; reflexivity]|]. cbn [mapM fst snd] in *.
  assert (G : (exists ts, mapM (trace_example false) l = Some ts) <-> Forall (fun e => match e with ETensor _ _ _ => True | _ => False end) l).
  { clear - H. induction H as [|e l He _ IH]; [split; [constructor|exists []; reflexivity]|]. cbn [mapM]. destruct e as [s d x|p|]; [| |destruct He].
    - cbn [trace_example obind]. split.
      + intros (ts & T). destruct (mapM (trace_example false) l) as [r|]; [|discriminate]. constructor; [exact I|]. apply IH. eauto.
      + intros F. inversion F as [|? ? _ F']; subst. apply IH in F' as (ts & ->). eexists. reflexivity.
    - cbn [trace_example guard obind]. split; [intros (ts & T); discriminate|]. intros F. inversion F as [|? ? F' _]; subst. destruct F'. }
  split.
  - intros (r & R). destruct (mapM (trace_example false) l) as [ts|]; [|discriminate]. cbn [obind] in R. destruct (mapM _ m) as [r'|]; [|discriminate].
    constructor; [apply G; eauto|apply IH; eauto].
  - intros F. inversion F as [|? ? F1 F2]; subst. apply G in F1 as (ts & ->). apply IH in F2 as (r & R). cbn [obind]. rewrite R. eexists. reflexivity.
Qed.
(** The tensor traced for a placeholder of rank 0 is an int64, whatever the dtype asked for. *)
Theorem C81_rank_zero_refuted d : trace_example true (EPlaceholder {| p_shape := []; p_dtype := d |}) = Some (ETensor [] Long [1]) /\
  (stands_for (ETensor [] Long [1]) {| p_shape := []; p_dtype := d |} <-> d = Long).
Proof. split; [reflexivity|]. cbn. split; [intros (_ & H & _); congruence|]. intros ->. split; [constructor|]. split; reflexivity. Qed.
(** The annotations of a method after "self" become placeholders of their shapes and dtypes, when all have value semantics. *)
Theorem C81_annotated self l ps : convert_annotations (self :: l) = Some ps <->
  Forall2 (fun a p => exists b, a = Some b /\ a_value_semantics b = true /\ p_shape p = a_shape b /\ p_dtype p = a_dtype b) l ps.
Proof.
  unfold convert_annotations. cbn [tl]. revert ps. induction l as [|a l IH]; intros ps; cbn [mapM].
  - split; [intros [= <-]; constructor|intros H; inversion H; reflexivity].
  - split.
    + destruct a as [b|]; cbn [obind]; [|discriminate]. destruct (a_value_semantics b) eqn:V; cbn [guard obind]; [|discriminate].
      destruct (mapM _ l) as [r|]; [|discriminate]. cbn [obind]. intros [= <-]. constructor; [exists b; auto|apply IH; reflexivity].
    + intros H. inversion H as [|? p ? r (b & -> & V & S1 & S2) H2]; subst. apply IH in H2. cbn [obind]. rewrite V. cbn [guard obind]. rewrite H2. cbn [obind].
      destruct p. cbn in *. subst. reflexivity.
Qed.
Lemma first_dynamic_spec : forall l k, match first_dynamic k l with
  | Some j => exists i, j = k + Z.of_nat i /\ nth_error l i = Some (-1) /\ forall i', (i' < i)%nat -> nth_error l i' <> Some (-1)
  | None => ~ In (-1) l end.
Proof.
  induction l as [|d l IH]; intros k; cbn [first_dynamic]; [intros []|]. destruct (Z.eqb_spec d (-1)) as [->|N].
  - exists O. split; [lia|]. split; [reflexivity|]. intros i' L. lia.
  - specialize (IH (k + 1)). destruct (first_dynamic (k + 1) l) as [j|].
    + destruct IH as (i & -> & A & B). exists (Datatypes.S i). split; [lia|]. split; [exact A|]. intros [|i'] L; cbn; [congruence|apply B; lia].
    + intros [X|X]; [congruence|auto].
Qed.
Definition value_shape (a : option annotation) (s : list Z) : Prop := exists b, a = Some b /\ a_value_semantics b = true /\ a_shape b = s.
(** Only the first unknown size of the first argument that has one is marked as dynamic. *)
Theorem C81_marked self l shapes : Forall2 value_shape l shapes ->
  match dynamic_argument (self :: l) with
  | Some (Some (i, j)) => exists i' j' s, i = Z.of_nat i' /\ j = Z.of_nat j' /\ nth_error shapes i' = Some s /\ nth_error s j' = Some (-1) /\
      (forall k, (k < j')%nat -> nth_error s k <> Some (-1)) /\ (forall k r, (k < i')%nat -> nth_error shapes k = Some r -> ~ In (-1) r)
  | Some None => forall s, In s shapes -> ~ In (-1) s
  | None => False
  end.
Proof.
  unfold dynamic_argument. cbn [tl]. intros H.
  assert (G : forall k, match dynamic_position k l with
    | Some (Some (i, j)) => exists i' j' s, i = k + Z.of_nat i' /\ j = Z.of_nat j' /\ nth_error shapes i' = Some s /\ nth_error s j' = Some (-1) /\
        (forall k, (k < j')%nat -> nth_error s k <> Some (-1)) /\ (forall k r, (k < i')%nat -> nth_error shapes k = Some r -> ~ In (-1) r)
    | Some None => forall s, In s shapes -> ~ In (-1) s
    | None => False end); [|apply (G 0)].
  induction H as [|a s l shapes (b & -> & V & <-) _ IH]; intros k; cbn [dynamic_position]; [intros s []|]. cbn [obind]. rewrite V. cbn [guard obind].
  pose proof (first_dynamic_spec (a_shape b) 0) as F. destruct (first_dynamic 0 (a_shape b)) as [j|].
  - destruct F as (i & -> & A & B). exists O, i, (a_shape b). split; [lia|]. split; [lia|]. split; [reflexivity|]. split; [exact A|]. split; [exact B|]. intros k' r L. lia.
  - specialize (IH (k + 1)). destruct (dynamic_position (k + 1) l) as [[(i, j)|]|]; [| |exact IH].
    + destruct IH as (i' & j' & s & -> & -> & A & B & C & D). exists (Datatypes.S i'), j', s. split; [lia|]. split; [reflexivity|]. split; [exact A|]. split; [exact B|]. split; [exact C|].
      intros [|k'] r L E; [cbn in E; injection E as <-; exact F|]. eapply D; [|exact E]. lia.
    + intros s [<- |S1]; [exact F|auto].
Qed.
(** A second unknown size is not marked: these two programs are compiled with the same dynamic sizes. *)
Theorem C81_second_dynamic_refuted :
  let a s := Some {| a_shape := s; a_dtype := Float; a_value_semantics := true |} in
  dynamic_argument [None; a [-1; -1]; a [-1]] = Some (Some (0, 0)) /\ dynamic_argument [None; a [-1; 3]; a [3]] = Some (Some (0, 0)).
Proof. split; reflexivity. Qed.
Lemma dynamic_dims_spec : forall l k j, In j (dynamic_dims k l) <-> exists i n, j = k + Z.of_nat i /\ nth_error l i = Some n /\ n < 0.
Proof.
  induction l as [|d l IH]; intros k j; cbn [dynamic_dims].
  - split; [intros []|]. intros (i & n & _ & H & _). destruct i; discriminate.
  - rewrite in_app_iff, IH. split.
    + intros [H|(i & n & -> & A & B)]; [|exists (Datatypes.S i), n; split; [lia|auto]].
      destruct (Z.ltb_spec d 0); [|destruct H]. destruct H as [<- |[]]. exists O, d. split; [lia|auto].
    + intros ([|i] & n & -> & A & B); cbn in A.
      * injection A as ->. left. destruct (Z.ltb_spec n 0); [|lia]. left. lia.
      * right. exists i, n. split; [lia|auto].
Qed.
(** For ONNX export: examples of the known sizes with 2 for unknown ones, whose places are exactly the dynamic dimensions. *)
Theorem C81_onnx_inputs p :
  Forall2 (fun s k => (k < 0 /\ s = 2) \/ (0 <= k /\ s = k)) (fst (onnx_example p)) (p_shape p) /\ snd (onnx_example p) = p_dtype p /\
  (forall l, onnx_dynamic p = Some l -> forall j, In j l <-> exists i n, j = Z.of_nat i /\ nth_error (p_shape p) i = Some n /\ n < 0) /\
  (onnx_dynamic p = None <-> Forall (fun n => 0 <= n) (p_shape p)).
Proof.
  split; [|split; [reflexivity|split]].
  - cbn [onnx_example fst]. induction (p_shape p) as [|k r IH]; constructor; [|exact IH]. destruct (Z.leb_spec 0 k); [auto|]. left. split; [lia|reflexivity].
  - unfold onnx_dynamic. intros l E j. pose proof (dynamic_dims_spec (p_shape p) 0 j) as D. cbn [Z.add] in D. destruct (dynamic_dims 0 (p_shape p)); [discriminate|]. injection E as <-. exact D.
  - unfold onnx_dynamic. pose proof (dynamic_dims_spec (p_shape p) 0) as D. destruct (dynamic_dims 0 (p_shape p)) as [|j l].
    + split; [|reflexivity]. intros _. apply Forall_forall. intros n I. apply In_nth_error in I as (i & I). destruct (Z.leb_spec 0 n); [assumption|].
      exfalso. apply (proj2 (D (Z.of_nat i))). exists i, n. split; [lia|auto].
    + split; [discriminate|]. intros F. exfalso. destruct (proj1 (D j)) as (i & n & _ & A & B); [left; reflexivity|]. rewrite Forall_forall in F. apply nth_error_In in A. specialize (F n A). lia.
Qed.
Lemma onnx_names_nth : forall l k i, nth_error (onnx_input_names k l) i = option_map (fun _ => onnx_input_name (k + i)) (nth_error l i).
Proof.
  induction l as [|p l IH]; intros k [|i]; cbn [onnx_input_names nth_error option_map]; try reflexivity; [rewrite Nat.add_0_r; reflexivity|].
  rewrite IH. replace (Datatypes.S k + i)%nat with (k + Datatypes.S i)%nat by lia. reflexivity.
Qed.
Lemma onnx_name_inj i j : onnx_input_name i = onnx_input_name j -> i = j.
Proof.
  unfold onnx_input_name, string_of_nat. cbn [String.append]. intros H. injection H as H.
  apply (f_equal NilZero.uint_of_string) in H. rewrite !NilZero.usu in H by apply to_uint_nonnil. injection H as H. apply DecimalNat.Unsigned.to_uint_inj. exact H.
Qed.
(** The names of the inputs are numbered from 0 and distinct. *)
Theorem C81_onnx_names l : length (onnx_input_names 0 l) = length l /\ NoDup (onnx_input_names 0 l) /\
  forall i, (i < length l)%nat -> nth_error (onnx_input_names 0 l) i = Some ("input_" ++ NilZero.string_of_uint (Nat.to_uint i))%string.
Proof.
  assert (L : forall k, length (onnx_input_names k l) = length l) by (induction l; intros k; cbn; congruence).
  split; [apply L|]. split.
  - apply NoDup_nth_error. intros i j Hi E. rewrite !onnx_names_nth in E. rewrite L in Hi. apply nth_error_Some in Hi. destruct (nth_error l i); [|congruence].
    destruct (nth_error l j); [|discriminate]. cbn [option_map] in E. injection E as E. apply (f_equal (fun s => ("input_" ++ s)%string)) in E. apply onnx_name_inj in E. lia.
  - intros i H. rewrite onnx_names_nth. apply nth_error_Some in H. destruct (nth_error l i); [reflexivity|congruence].
Qed.
(** ** Output types *)
Definition alphabet : list ascii := "_"%char :: map ascii_of_nat (seq 65 26).
Definition same_letter_b (a b : ascii) : bool :=
  Ascii.eqb a b || (Ascii.eqb a "-" && Ascii.eqb b "_") || existsb (fun n => Ascii.eqb b (ascii_of_nat n) && Ascii.eqb a (ascii_of_nat (n + 32))) (seq 65 26).
Lemma same_letter_spec a b : same_letter_b a b = true <-> same_letter a b.
Proof.
  unfold same_letter_b, same_letter. rewrite !orb_true_iff, andb_true_iff, existsb_exists, !Ascii.eqb_eq. split.
  - intros [[H|H]|(n & A & B)]; [auto|auto|]. right. right. exists n. apply in_seq in A. apply andb_prop in B as (B & C). apply Ascii.eqb_eq in B, C. split; [lia|auto].
  - intros [H|[H|(n & A & -> & ->)]]; [auto|auto|]. right. exists n. split; [apply in_seq; lia|]. rewrite !Ascii.eqb_refl. reflexivity.
Qed.
Lemma all_letters : forallb (fun n => forallb (fun b => Bool.eqb (Ascii.eqb (dash (upper (ascii_of_nat n))) b) (same_letter_b (ascii_of_nat n) b)) alphabet) (seq 0 256) = true.
Proof. vm_compute. reflexivity. Qed.
Lemma letter a b : In b alphabet -> (dash (upper a) = b <-> same_letter a b).
Proof.
  intros I. pose proof all_letters as H. rewrite forallb_forall in H. specialize (H (nat_of_ascii a)). rewrite ascii_nat_embedding in H.
  assert (Ia : In (nat_of_ascii a) (seq 0 256)) by (apply in_seq; pose proof (nat_ascii_bounded a); lia).
  specialize (H Ia). rewrite forallb_forall in H. specialize (H b I). apply Bool.eqb_prop in H. rewrite <- same_letter_spec, <- H, Ascii.eqb_eq. reflexivity.
Qed.
Fixpoint over (s : string) : Prop := match s with EmptyString => True | String c r => In c alphabet /\ over r end.
Lemma text s t : over t -> (map_string dash (map_string upper s) = t <-> same_text s t).
Proof.
  revert t. induction s as [|a s IH]; intros [|b t] O; cbn [map_string].
  - split; [constructor|reflexivity].
  - split; [discriminate|intros H; inversion H].
  - split; [discriminate|intros H; inversion H].
  - destruct O as (O1 & O2). split.
    + intros [= A B]. constructor; [apply letter; assumption|apply IH; assumption].
    + intros H. inversion H as [|? ? ? ? H1 H2]; subst. apply letter in H1; [|exact O1]. apply IH in H2; [|exact O2]. congruence.
Qed.
Lemma member_names n t : In (n, t) members -> over n.
Proof. intros H. cbn in H. repeat destruct H as [H|H]; try (injection H as <- <-; cbn; tauto). destruct H. Qed.
(** An output type is named by its name in any case, with "-" or "_". *)
Theorem C81_output_types s t : output_type_get (inl s) = Some t <-> exists n, In (n, t) members /\ same_text s n.
Proof.
  cbn [output_type_get]. split.
  - destruct (find _ members) as [(n, t')|] eqn:E; [|discriminate]. intros [= ->]. apply find_some in E as (I & E). cbn [fst] in E. apply String.eqb_eq in E.
    exists n. split; [exact I|]. apply text; [eapply member_names; exact I|congruence].
  - intros (n & I & H). apply text in H; [|eapply member_names; exact I]. rewrite H. cbn in I.
    repeat destruct I as [I|I]; try (injection I as <- <-; reflexivity). destruct I.
Qed.
Theorem C81_output_type_itself t : output_type_get (inr t) = Some t.
Proof. reflexivity. Qed.
(** Each output type but RAW has at most one pipeline, of its own. *)
Theorem C81_pipelines t t' b b' l : lower_mlir_module t b = Some l -> (length l <= 1)%nat /\ (l = [] <-> t = TORCH) /\ t <> RAW /\ (lower_mlir_module t' b' = Some l -> t = t').
Proof. destruct t, t', b, b'; cbn; intros H; try discriminate; injection H as <-; cbn; repeat split; try lia; intros X; discriminate || reflexivity. Qed.
(** The two pipelines that take the option get the text Python prints for it. *)
Theorem C81_pipeline_option t b l : In t [LINALG_ON_TENSORS; STABLEHLO] -> lower_mlir_module t b = Some l ->
  exists before, l = [(before ++ "{allow-non-finites=" ++ (match b with true => "True" | false => "False" end) ++ "})")%string].
Proof.
  intros [<-|[<-|[]]] H; destruct b; cbn in H; injection H as <-.
  - now exists "builtin.module(torch-backend-to-linalg-on-tensors-backend-pipeline".
  - now exists "builtin.module(torch-backend-to-linalg-on-tensors-backend-pipeline".
  - now exists "builtin.module(torch-backend-to-stablehlo-backend-pipeline".
  - now exists "builtin.module(torch-backend-to-stablehlo-backend-pipeline".
Qed.
Theorem C81_raw_refused b : lower_mlir_module RAW b = None.
Proof. reflexivity. Qed.
Theorem C81_lowered t b : t <> RAW -> exists l, lower_mlir_module t b = Some l.
Proof. destruct t; intros H; try congruence; eexists; reflexivity. Qed.
Example C81_nonvacuous :
  p_shape (like [4; 5; 6] Float (Some [0; 2])) = [-1; 5; -1] /\
  trace_example true (EPlaceholder {| p_shape := [2; -1]; p_dtype := Half |}) = Some (ETensor [2; 7] Half (repeat 1 14)) /\
  trace_example true (EPlaceholder {| p_shape := [-2]; p_dtype := Half |}) = None /\
  trace_example false (EPlaceholder {| p_shape := []; p_dtype := Half |}) = None /\
  canonicalize_args (ESequence [EOther]) = None /\
  onnx_dynamic {| p_shape := [2; -1; 3; -5]; p_dtype := Half |} = Some [1; 3] /\ fst (onnx_example {| p_shape := [0; -1]; p_dtype := Half |}) = [0; 2] /\
  output_type_get (inl "linalg-on-tensors") = Some LINALG_ON_TENSORS /\ output_type_get (inl "Tosa") = Some TOSA /\ output_type_get (inl "stable-hlo") = None /\
  lower_mlir_module TOSA true = Some ["builtin.module(torch-backend-to-tosa-backend-pipeline)"] /\
  lower_mlir_module STABLEHLO false = Some ["builtin.module(torch-backend-to-stablehlo-backend-pipeline{allow-non-finites=False})"] /\
  lower_mlir_module LINALG_ON_TENSORS true = Some ["builtin.module(torch-backend-to-linalg-on-tensors-backend-pipeline{allow-non-finites=True})"].
Proof. repeat split; reflexivity. Qed.

(** Removing the prefix of a name takes away exactly that many characters. *)
Theorem C79_drop_is_a_suffix n s : drop n s = substring n (String.length s - n) s.
Proof.
  revert n. induction s as [|c s IH]; intros [|n]; cbn [drop String.length substring Nat.sub]; try reflexivity.
  - f_equal. specialize (IH 0%nat). rewrite Nat.sub_0_r in IH. destruct s; exact IH.
  - apply IH.
Qed.
(** A buffer read with the word of a number is the address of its descriptor, a number read with the word of a buffer an error. *)
Theorem C79_wrong_words v w : (forall t s b c, v = RMem t s b -> elemental_type_to_ctype w = Some c -> consume_one v w = Some PPointer) /\
  (forall t z, v = RNum t z -> elemental_type_to_ctype w = None -> consume_one v w = None).
Proof.
  unfold consume_one. split; intros; subst v; rewrite H0; [reflexivity|]. now destruct (memref_type_to_np_dtype w).
Qed.

Print Assumptions C79_names. Print Assumptions C79_pass. Print Assumptions C79_last_signature. Print Assumptions C79_one_signature. Print Assumptions C79_loads.
Print Assumptions C79_no_results_refuted. Print Assumptions C80_to_numpy. Print Assumptions C80_from_numpy. Print Assumptions C80_round_trip.
Print Assumptions C80_convertible. Print Assumptions C80_results. Print Assumptions C80_user_outputs. Print Assumptions C81_like. Print Assumptions C81_traced.
Print Assumptions C81_marked. Print Assumptions C81_onnx_inputs. Print Assumptions C81_onnx_names. Print Assumptions C81_output_types. Print Assumptions C81_pipelines.
