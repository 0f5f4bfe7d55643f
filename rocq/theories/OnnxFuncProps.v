(** C26, C65: operators defined by functions. *)
From Coq Require Import ZArith Bool Lia String List.
From Verif Require Import Prelude OnnxModel OnnxSpec OnnxProps OnnxFuncModel.
Import ListNotations.
Open Scope string_scope.
Open Scope list_scope.
Open Scope Z_scope.

(** * Versions *)
Lemma newest_spec l opset : match newest l opset with
  | Some v => In v l /\ v <= opset /\ forall w, In w l -> w <= opset -> w <= v
  | None => forall w, In w l -> ~ w <= opset
  end.
Proof.
  unfold newest. assert (F : forall w, In w l -> w <= opset -> In w (filter (fun v => v <=? opset) l)) by (intros; apply filter_In; split; [assumption|apply Z.leb_le; assumption]).
  assert (G : forall w, In w (filter (fun v => v <=? opset) l) -> In w l /\ w <= opset) by (intros w H; apply filter_In in H as [A B]; apply Z.leb_le in B; auto).
  assert (M : forall r m, fold_left (fun m v => match m with Some x => Some (Z.max x v) | None => Some v end) r (Some m) = Some (fold_left Z.max r m)) by (induction r as [|x r IH]; intros m; [reflexivity|]; apply IH).
  assert (X : forall r m, m <= fold_left Z.max r m /\ (fold_left Z.max r m = m \/ In (fold_left Z.max r m) r) /\ forall w, In w r -> w <= fold_left Z.max r m).
  { induction r as [|x r IH]; intros m; cbn [fold_left]; [split; [lia|split; [auto|intros ? []]]|]. destruct (IH (Z.max m x)) as (A & B & C). split; [lia|]. split.
    - destruct B as [B|B]; [rewrite B; destruct (Z.max_spec m x) as [[_ ->]|[_ ->]]; cbn; auto|right; right; exact B].
    - intros w [<-|I]; [lia|apply C; exact I]. }
  destruct (filter (fun v => v <=? opset) l) as [|v r]; cbn [fold_left]; [intros w I L; exact (F w I L)|]. rewrite M. destruct (X r v) as (A & B & C).
  assert (I : In (fold_left Z.max r v) (v :: r)) by (destruct B as [-> |B]; [left; reflexivity|right; exact B]). destruct (G _ I) as [I1 I2]. split; [exact I1|]. split; [exact I2|].
  intros w W L. destruct (F w W L) as [<-|J]; [exact A|apply C; exact J].
Qed.
(** C26: the version chosen is the newest one not newer than the opset, among the bodies of both kinds; a body that depends on
    the context is taken if there is one for that version. *)
Theorem C26_version s opset : match choose_version s opset with
  | Some (v, cd) =>
      (In v (function_opset_versions s) \/ In v (context_dependent_function_opset_versions s)) /\ v <= opset /\
      (forall w, In w (function_opset_versions s) \/ In w (context_dependent_function_opset_versions s) -> w <= opset -> w <= v) /\
      (cd = true <-> In v (context_dependent_function_opset_versions s))
  | None => forall w, In w (function_opset_versions s) \/ In w (context_dependent_function_opset_versions s) -> ~ w <= opset
  end.
Proof.
  unfold choose_version. pose proof (newest_spec (function_opset_versions s) opset) as A. pose proof (newest_spec (context_dependent_function_opset_versions s) opset) as B.
  destruct (newest (function_opset_versions s) opset) as [n|], (newest (context_dependent_function_opset_versions s) opset) as [c|].
  - destruct A as (A1 & A2 & A3), B as (B1 & B2 & B3). destruct (Z.ltb_spec c n).
    + split; [auto|]. split; [lia|]. split; [intros w [W|W] L; [auto|specialize (B3 w W L); lia]|]. split; [discriminate|]. intros I. specialize (B3 n I A2). lia.
    + split; [auto|]. split; [lia|]. split; [intros w [W|W] L; [specialize (A3 w W L); lia|auto]|]. split; auto.
  - destruct A as (A1 & A2 & A3). split; [auto|]. split; [lia|]. split; [intros w [W|W] L; [auto|exfalso; exact (B w W L)]|]. split; [discriminate|]. intros I. exfalso. exact (B n I A2).
  - destruct B as (B1 & B2 & B3). split; [auto|]. split; [lia|]. split; [intros w [W|W] L; [exfalso; exact (A w W L)|auto]|]. split; auto.
  - intros w [W|W] L; [exact (A w W L)|exact (B w W L)].
Qed.
Lemma listed_iff lists domain op : listed lists domain op = true <-> exists l, lookup lists domain = Some l /\ In op l.
Proof.
  unfold listed. destruct (lookup lists domain) as [l|]; [|split; [discriminate|intros (l & [=] & _)]]. rewrite existsb_key. split; [eauto|intros (l' & [= <-] & H); exact H].
Qed.
(** C26: the operators considered are those allowed, if there is a list of allowed ones, and not denied. *)
Theorem C26_which_operators c domain op : may_expand c domain op = true <->
  (forall lists, allowlists c = Some lists -> exists l, lookup lists domain = Some l /\ In op l) /\ ~ (exists l, lookup (denylists c) domain = Some l /\ In op l).
Proof.
  unfold may_expand. rewrite andb_true_iff, negb_true_iff, <- listed_iff. rewrite Bool.not_true_iff_false. destruct (allowlists c) as [lists|].
  - rewrite listed_iff. split; [intros [H N]; split; [intros ? [= <-]; exact H|exact N]|intros [H N]; split; [apply H; reflexivity|exact N]].
  - split; [intros [_ N]; split; [discriminate|exact N]|intros [_ N]; auto].
Qed.
Theorem C26_default_operators domain op : may_expand default_config domain op = true <-> domain = "" /\ op = "MeanVarianceNormalization".
Proof.
  rewrite C26_which_operators. split.
  - intros [H _]. destruct (H _ eq_refl) as (l & L & I). cbn [lookup] in L. destruct (String.eqb_spec "" domain) as [<-|]; [|discriminate]. injection L as <-. destruct I as [<-|[]]. auto.
  - intros [-> ->]. split; [intros lists [= <-]; exists ["MeanVarianceNormalization"]; cbn; auto|]. intros (l & L & I). injection L as <-. destruct I as [I|[I|[]]]; discriminate.
Qed.

(** * The cache *)
Lemma NoDup_snoc {X} (l : list X) x : NoDup l -> ~ In x l -> NoDup (l ++ [x]).
Proof. intros D N. apply NoDup_Add with (a := x) (l := l); [|auto]. rewrite <- (app_nil_r l) at 1. apply Add_app. Qed.
Section C26.
Context {TP A N : Type} (key_eq_dec : forall a b : key TP A N, {a = b} + {a <> b}).
Context (get_schema : string -> string -> Z -> option schema) (body : key TP A N -> Z -> bool -> option (list (request TP A N))).
Notation get := (get_operator_function key_eq_dec get_schema body).
Notation run := (run_requests key_eq_dec get_schema body).
(** Functions do not use themselves, directly or not: there is a measure that decreases towards the bodies. *)
Context (rank : string -> nat).
Hypothesis not_recursive : forall k v cd uses u, body k v cd = Some uses -> In u uses -> (rank (r_op u) < rank (match k with Key op _ _ _ _ _ _ => op end))%nat.
Definition key_op (k : key TP A N) : string := match k with Key op _ _ _ _ _ _ => op end.

(** The cache lists the functions of the module, one per key. *)
Definition consistent (st : cache TP A N) : Prop :=
  NoDup (map f_key (functions st)) /\
  forall k i, cached key_eq_dec (operator_function_map st) k = Some i <-> option_map f_key (nth_error (functions st) i) = Some k.
(** A function made for a key has the version the schema gives. *)
Definition well_made (st : cache TP A N) : Prop :=
  Forall (fun f => exists r s, f_key f = key_of r (f_context_dependent f) /\ get_schema (r_op r) (r_domain r) (r_opset r) = Some s /\
                               choose_version s (r_opset r) = Some (f_version f, f_context_dependent f)) (functions st).
Definition extends (st st' : cache TP A N) (bound : nat) : Prop :=
  exists new, functions st' = functions st ++ new /\ Forall (fun f => (rank (key_op (f_key f)) < bound)%nat) new.
Lemma get_step fuel : forall c st r res st', get fuel c st r = Some (res, st') -> consistent st -> well_made st ->
  consistent st' /\ well_made st' /\ extends st st' (S (rank (r_op r))) /\
  ((res = None /\ (may_expand c (r_domain r) (r_op r) = false \/ exists s, get_schema (r_op r) (r_domain r) (r_opset r) = Some s /\ choose_version s (r_opset r) = None)) \/
   exists i s v cd f, res = Some i /\ may_expand c (r_domain r) (r_op r) = true /\ get_schema (r_op r) (r_domain r) (r_opset r) = Some s /\
     choose_version s (r_opset r) = Some (v, cd) /\ nth_error (functions st') i = Some f /\ f_key f = key_of r cd).
Proof.
  induction fuel as [|fuel IH]; intros c st r res st' H C W; [discriminate|]. cbn [get_operator_function] in H.
  assert (E0 : forall b, extends st st b) by (intros b; exists []; rewrite app_nil_r; auto).
  destruct (may_expand c (r_domain r) (r_op r)) eqn:ME; [|injection H as <- <-; split; [exact C|split; [exact W|split; [apply E0|left; auto]]]].
  destruct (get_schema (r_op r) (r_domain r) (r_opset r)) as [s|] eqn:GS; cbn [obind] in H; [|discriminate].
  destruct (choose_version s (r_opset r)) as [[v cd]|] eqn:CV; [|injection H as <- <-; split; [exact C|split; [exact W|split; [apply E0|left; split; [reflexivity|right; eauto]]]]].
  destruct (cached key_eq_dec (operator_function_map st) (key_of r cd)) as [i|] eqn:CA.
  - injection H as <- <-. split; [exact C|]. split; [exact W|]. split; [apply E0|]. right. pose proof (proj1 (proj2 C _ _) CA) as X. destruct (nth_error (functions st) i) as [f|] eqn:NE; [|discriminate].
    injection X as X. exists i, s, v, cd, f. auto 10.
  - destruct (body (key_of r cd) v cd) as [uses|] eqn:BO; cbn [obind] in H; [|discriminate].
    destruct (foldM _ uses st) as [st1|] eqn:FO; cbn [obind] in H; [|discriminate]. injection H as <- <-.
    assert (L : forall us st st1, foldM (fun st u => do (_, st') <- get fuel default_config st u; Some st') us st = Some st1 -> consistent st -> well_made st ->
      (forall u, In u us -> (rank (r_op u) < rank (r_op r))%nat) -> consistent st1 /\ well_made st1 /\ extends st st1 (rank (r_op r))).
    { clear - IH. induction us as [|u us IHu]; intros st st1 F C W R; cbn [foldM] in F.
      - injection F as <-. split; [exact C|]. split; [exact W|]. exists []. rewrite app_nil_r. auto.
      - destruct (get fuel default_config st u) as [[res st2]|] eqn:G; cbn [obind] in F; [|discriminate]. destruct (IH _ _ _ _ _ G C W) as (C2 & W2 & (n1 & E1 & F1) & _).
        destruct (IHu st2 st1 F C2 W2) as (C3 & W3 & (n2 & E2 & F2)); [intros x X; apply R; right; exact X|]. split; [exact C3|]. split; [exact W3|]. exists (n1 ++ n2). split; [rewrite E2, E1, app_assoc; reflexivity|].
        apply Forall_app. split; [|exact F2]. eapply Forall_impl; [|exact F1]. intros f Q. cbn in Q. specialize (R u (or_introl eq_refl)). lia. }
    destruct (L uses st st1 FO C W) as (C1 & W1 & (new & E1 & F1)); [intros u U; exact (not_recursive _ _ _ _ _ BO U)|].
    assert (NK : ~ In (key_of r cd) (map f_key (functions st1))).
    { rewrite E1, map_app, in_app_iff. intros [I|I].
      - apply in_map_iff in I as (f & Q & I). apply In_nth_error in I as [i I]. assert (X : cached key_eq_dec (operator_function_map st) (key_of r cd) = Some i) by (apply (proj2 C); rewrite I; cbn; rewrite Q; reflexivity). congruence.
      - apply in_map_iff in I as (f & Q & I). rewrite Forall_forall in F1. specialize (F1 f I). rewrite Q in F1. cbn in F1. lia. }
    split; [|split; [|split]].
    + split; cbn [functions operator_function_map].
      * rewrite map_app. cbn [map]. apply NoDup_snoc; [apply C1|exact NK].
      * intros k i. cbn [cached]. destruct (key_eq_dec (key_of r cd) k) as [<-|NE].
        -- split; [intros [= <-]; rewrite nth_error_app2, Nat.sub_diag by lia; reflexivity|]. intros X. f_equal.
           destruct (lt_dec i (length (functions st1))) as [Li|Li].
           ++ exfalso. rewrite nth_error_app1 in X by exact Li. destruct (nth_error (functions st1) i) as [f|] eqn:Q; [|discriminate]. injection X as X. apply NK. rewrite <- X. apply in_map. eapply nth_error_In. exact Q.
           ++ rewrite nth_error_app2 in X by lia. destruct (i - length (functions st1))%nat as [|j] eqn:J; [lia|]. cbn in X. destruct j; discriminate.
        -- rewrite (proj2 C1 k i). destruct (lt_dec i (length (functions st1))) as [Li|Li]; [rewrite nth_error_app1 by exact Li; reflexivity|].
           rewrite nth_error_app2 by lia. assert (Q : nth_error (functions st1) i = None) by (apply nth_error_None; lia). rewrite Q. split; [discriminate|]. destruct (i - length (functions st1))%nat as [|j]; cbn; [intros [= X]; congruence|destruct j; discriminate].
    + unfold well_made. cbn [functions]. apply Forall_app. split; [exact W1|]. constructor; [|constructor]. exists r, s. auto.
    + exists (new ++ [{| f_key := key_of r cd; f_version := v; f_context_dependent := cd |}]). cbn [functions]. split; [rewrite E1, app_assoc; reflexivity|]. apply Forall_app. split; [|constructor; [cbn; lia|constructor]].
      eapply Forall_impl; [|exact F1]. intros f Q. cbn in Q. lia.
    + right. exists (length (functions st1)), s, v, cd, {| f_key := key_of r cd; f_version := v; f_context_dependent := cd |}. cbn [functions]. rewrite nth_error_app2, Nat.sub_diag by lia. auto 10.
Qed.
(** What a use is replaced by. *)
Definition outcome (c : config) (fs : list (func TP A N)) (r : request TP A N) (res : option nat) : Prop :=
  (res = None /\ (may_expand c (r_domain r) (r_op r) = false \/ exists s, get_schema (r_op r) (r_domain r) (r_opset r) = Some s /\ choose_version s (r_opset r) = None)) \/
  exists i s v cd f, res = Some i /\ may_expand c (r_domain r) (r_op r) = true /\ get_schema (r_op r) (r_domain r) (r_opset r) = Some s /\
    choose_version s (r_opset r) = Some (v, cd) /\ nth_error fs i = Some f /\ f_key f = key_of r cd.
Lemma outcome_app c fs new r res : outcome c fs r res -> outcome c (fs ++ new) r res.
Proof.
  intros [H|(i & s & v & cd & f & H1 & H2 & H3 & H4 & H5 & H6)]; [left; exact H|]. right. exists i, s, v, cd, f. repeat split; auto. rewrite nth_error_app1; [exact H5|]. apply nth_error_Some. congruence.
Qed.
Lemma run_step fuel c l : forall st res st', run fuel c st l = Some (res, st') -> consistent st -> well_made st ->
  consistent st' /\ well_made st' /\ (exists new, functions st' = functions st ++ new) /\ Forall2 (outcome c (functions st')) l res.
Proof.
  induction l as [|r l IH]; intros st res st' H C W; cbn [run_requests] in H; [injection H as <- <-; repeat split; auto; try apply C; exists []; rewrite app_nil_r; reflexivity|].
  destruct (get fuel c st r) as [[f st1]|] eqn:G; cbn [obind] in H; [|discriminate]. destruct (run fuel c st1 l) as [[fs st2]|] eqn:R; cbn [obind] in H; [|discriminate]. injection H as <- <-.
  destruct (get_step fuel c st r f st1 G C W) as (C1 & W1 & (n1 & E1 & _) & O). destruct (IH st1 fs st2 R C1 W1) as (C2 & W2 & (n2 & E2) & F).
  split; [exact C2|]. split; [exact W2|]. split; [exists (n1 ++ n2); rewrite E2, E1, app_assoc; reflexivity|]. constructor; [rewrite E2; apply outcome_app; exact O|exact F].
Qed.
Lemma consistent0 : consistent cache0 /\ well_made cache0.
Proof. split; [split; [constructor|]; intros k i; cbn; split; [discriminate|destruct i; discriminate]|constructor]. Qed.
(** C26: a use is replaced by a call exactly when the operator may be expanded and has a body for the opset; every function
    was made for such a use, from the version chosen for it; and no two functions have the same key. *)
Theorem C26_uses_and_functions fuel c l res st : run fuel c cache0 l = Some (res, st) ->
  Forall2 (outcome c (functions st)) l res /\ well_made st /\ NoDup (map f_key (functions st)).
Proof.
  intros H. destruct consistent0 as [C W]. destruct (run_step fuel c l _ _ _ H C W) as (C' & W' & _ & F). split; [exact F|]. split; [exact W'|apply C'].
Qed.
(** The key of a use, as the schema has it. *)
Definition use_key (r : request TP A N) (k : key TP A N) : Prop :=
  exists s v cd, get_schema (r_op r) (r_domain r) (r_opset r) = Some s /\ choose_version s (r_opset r) = Some (v, cd) /\ k = key_of r cd.
(** C26: two uses call the same function exactly when they have the same key. *)
Theorem C26_shared_iff_same_key fuel c l res st a b ra rb ia ib ka kb : run fuel c cache0 l = Some (res, st) ->
  nth_error l a = Some ra -> nth_error l b = Some rb -> nth_error res a = Some (Some ia) -> nth_error res b = Some (Some ib) ->
  use_key ra ka -> use_key rb kb -> (ia = ib <-> ka = kb).
Proof.
  intros H La Lb Ra Rb Ka Kb. destruct (C26_uses_and_functions fuel c l res st H) as (F & _ & ND).
  assert (G : forall n r i k, nth_error l n = Some r -> nth_error res n = Some (Some i) -> use_key r k -> option_map f_key (nth_error (functions st) i) = Some k).
  { intros n r i k Ln Rn (s & v & cd & S1 & V1 & ->). assert (O : outcome c (functions st) r (Some i)).
    { clear - F Ln Rn. revert n Ln Rn. induction F as [|x y l res O F IH]; intros [|n] Ln Rn; try discriminate; [injection Ln as ->; injection Rn as ->; exact O|exact (IH n Ln Rn)]. }
    destruct O as [[X _]|(i' & s' & v' & cd' & f & X1 & _ & X3 & X4 & X5 & X6)]; [discriminate|]. injection X1 as <-. rewrite X5. cbn. rewrite X6. rewrite S1 in X3. injection X3 as <-. rewrite V1 in X4. injection X4 as <- <-. reflexivity. }
  pose proof (G a ra ia ka La Ra Ka) as Ga. pose proof (G b rb ib kb Lb Rb Kb) as Gb. split.
  - intros <-. rewrite Ga in Gb. injection Gb as E. exact E.
  - intros <-. rewrite <- !nth_error_map in *. rewrite NoDup_nth_error in ND. apply ND; [apply nth_error_Some; rewrite Ga; discriminate|congruence].
Qed.
(** C26: so uses with the same operator, domain, opset, types and attributes share a function if it does not depend on the
    context, and otherwise only if the whole nodes are equal. *)
Theorem C26_same_signature ra rb s v cd ka kb : get_schema (r_op ra) (r_domain ra) (r_opset ra) = Some s -> choose_version s (r_opset ra) = Some (v, cd) ->
  use_key ra ka -> use_key rb kb ->
  (ka = kb <-> r_op ra = r_op rb /\ r_domain ra = r_domain rb /\ r_opset ra = r_opset rb /\ r_inputs ra = r_inputs rb /\ r_outputs ra = r_outputs rb /\ r_attributes ra = r_attributes rb /\
               (cd = true -> r_rest ra = r_rest rb)).
Proof.
  intros S1 V1 (sa & va & ca & SA & VA & ->) (sb & vb & cb & SB & VB & ->). rewrite S1 in SA. injection SA as <-. rewrite V1 in VA. injection VA as <- <-. unfold key_of. split.
  - intros [= E1 E2 E3 E4 E5 E6 E7]. repeat split; auto. intros ->. rewrite <- E1, <- E2, <- E3 in SB. rewrite S1 in SB. injection SB as <-. rewrite <- E3, V1 in VB. injection VB as <- <-. congruence.
  - intros (E1 & E2 & E3 & E4 & E5 & E6 & E7). rewrite <- E1, <- E2, <- E3 in *. rewrite S1 in SB. injection SB as <-. rewrite V1 in VB. injection VB as <- <-. rewrite E4, E5, E6. destruct cd; [rewrite E7 by reflexivity|]; reflexivity.
Qed.
End C26.

(** An operator with a body since version 6, another one that depends on the context since version 12. *)
Definition sample_schema (op domain : string) (opset : Z) : option schema :=
  if String.eqb op "Softplus" then Some {| function_opset_versions := [6; 18]; context_dependent_function_opset_versions := [12] |} else Some {| function_opset_versions := []; context_dependent_function_opset_versions := [] |}.
Definition sample_body (k : key Z Z string) (v : Z) (cd : bool) : option (list (request Z Z string)) :=
  match k with Key op d o _ _ _ _ => if String.eqb op "Softplus" then Some [{| r_op := "Exp"; r_domain := d; r_opset := o; r_inputs := []; r_outputs := []; r_attributes := []; r_rest := "" |}] else Some [] end.
Definition use (opset : Z) (attrs : list Z) (rest : string) : request Z Z string :=
  {| r_op := "Softplus"; r_domain := ""; r_opset := opset; r_inputs := [1]; r_outputs := [1]; r_attributes := attrs; r_rest := rest |}.
Definition key_dec : forall a b : key Z Z string, {a = b} + {a <> b}.
Proof. decide equality; try apply string_dec; try apply Z.eq_dec; try (apply list_eq_dec, Z.eq_dec). decide equality. apply string_dec. Defined.
Definition all_ops : config := {| allowlists := None; denylists := [] |}.
Example C26_nonvacuous : option_map fst (run_requests key_dec sample_schema sample_body 2 all_ops cache0 [use 11 [] "a"; use 11 [] "b"; use 11 [7] "c"; use 4 [] "d"; use 18 [] "e"]) =
  Some [Some 0%nat; Some 0%nat; Some 1%nat; None; Some 2%nat] /\
  (forall k v cd uses u, sample_body k v cd = Some uses -> In u uses -> ((if String.eqb (r_op u) "Softplus" then 1 else 0) < (if String.eqb (match k with Key op _ _ _ _ _ _ => op end) "Softplus" then 1 else 0))%nat).
Proof.
  split; [reflexivity|]. intros [op d o i ou a r] v cd uses u. unfold sample_body. destruct (String.eqb_spec op "Softplus") as [->|N].
  - intros [= <-] [<-|[]]. cbn. lia.
  - intros [= <-] [].
Qed.
(** C26: a body that depends on the context is not shared between uses that differ only in the names of their values. *)
Theorem C26_context_dependent_not_shared_refuted : 
  option_map fst (run_requests key_dec sample_schema sample_body 2 all_ops cache0 [use 12 [] "a"; use 12 [] "b"]) = Some [Some 0%nat; Some 1%nat].
Proof. reflexivity. Qed.
(** C26: inside a function the user's configuration is not used: an operator the user allows is not expanded there. *)
Definition nested_schema (op domain : string) (opset : Z) : option schema := Some {| function_opset_versions := [1]; context_dependent_function_opset_versions := [] |}.
Theorem C26_nested_uses_default_config_refuted :
  option_map fst (run_requests key_dec nested_schema sample_body 3 all_ops cache0 [use 12 [] "a"; {| r_op := "Exp"; r_domain := ""; r_opset := 12; r_inputs := []; r_outputs := []; r_attributes := []; r_rest := "" |}]) = Some [Some 0%nat; Some 1%nat] /\
  option_map (fun p => length (functions (snd p))) (run_requests key_dec nested_schema sample_body 3 all_ops cache0 [use 12 [] "a"]) = Some 1%nat.
Proof. split; reflexivity. Qed.

(** * C65 *)
Section C65.
Context {V TP : Type}.
Definition renamed (old a : fattr V) : fattr V := {| fa_name := fa_name old; ref_attr_name := ref_attr_name a; fa_value := fa_value a; g_refs := g_refs a; graphs_refs := graphs_refs a |}.
Definition first_named (l : list (fattr V)) (n : string) (a : fattr V) : Prop :=
  exists before after, l = before ++ a :: after /\ fa_name a = n /\ forall b, In b before -> fa_name b <> n.
(** What an attribute of the body becomes: itself; the caller's attribute; the default; or nothing. *)
Inductive bound (caller : list (fattr V)) (defaults : list (string * option (fattr V))) (old : fattr V) : option (fattr V) -> Prop :=
| b_plain : ref_attr_name old = "" -> bound caller defaults old (Some old)
| b_caller a : ref_attr_name old <> "" -> first_named caller (ref_attr_name old) a -> bound caller defaults old (Some (renamed old a))
| b_default d : ref_attr_name old <> "" -> ~ In (ref_attr_name old) (map fa_name caller) -> lookup defaults (ref_attr_name old) = Some (Some d) -> bound caller defaults old (Some (renamed old d))
| b_none : ref_attr_name old <> "" -> ~ In (ref_attr_name old) (map fa_name caller) -> lookup defaults (ref_attr_name old) = Some None -> bound caller defaults old None.
Lemma find_first (l : list (fattr V)) n : match find (fun a => String.eqb (fa_name a) n) l with
  | Some a => first_named l n a | None => ~ In n (map fa_name l) end.
Proof.
  induction l as [|x l IH]; cbn [find map]; [auto|]. destruct (String.eqb_spec (fa_name x) n) as [E|E]; [exists [], l; split; [reflexivity|split; [exact E|intros ? []]]|].
  destruct (find _ l) as [a|]; [|cbn; tauto]. destruct IH as (b & c & -> & N & U). exists (x :: b), c. split; [reflexivity|]. split; [exact N|]. intros y [<-|I]; auto.
Qed.
Lemma first_named_fun (l : list (fattr V)) n a b : first_named l n a -> first_named l n b -> a = b.
Proof.
  intros (p & q & -> & N & U) (p' & q' & E & N' & U'). revert p' E U'. induction p as [|x p IH]; intros [|y p'] E U'; cbn in E.
  - congruence.
  - injection E as -> E. exfalso. exact (U' y (or_introl eq_refl) N).
  - injection E as -> E. exfalso. apply (U b); [left; reflexivity|exact N'].
  - injection E as -> E. apply (IH (fun z I => U z (or_intror I)) p' E). intros z I. apply U'. right. exact I.
Qed.
(** C65: an attribute that has no list of graphs is bound to the first attribute of the caller with the name it refers to, else to the default,
    else dropped; with no reference it is kept. *)
Theorem C65_bind_attribute_partial caller defaults old res : graphs_refs old = [] ->
  (bind_attribute caller defaults old = Some res <-> bound caller defaults old res).
Proof.
  intros G. unfold bind_attribute. rewrite G. destruct (String.eqb_spec (ref_attr_name old) "") as [E|E].
  - split; [intros [= <-]; constructor; exact E|]. intros [R|a R|d R|R]; congruence.
  - pose proof (find_first caller (ref_attr_name old)) as F. destruct (find _ caller) as [a|].
    + split; [intros [= <-]; apply b_caller; assumption|]. assert (I : In (ref_attr_name old) (map fa_name caller)) by (destruct F as (p & q & -> & <- & _); rewrite map_app, in_app_iff; right; left; reflexivity).
      intros [R|b R FB|d R N|R N]; try contradiction. rewrite (first_named_fun _ _ _ _ F FB). reflexivity.
    + destruct (lookup defaults (ref_attr_name old)) as [[d|]|] eqn:L; cbn [obind option_map].
      * split; [intros [= <-]; apply (b_default _ _ _ d); assumption|]. intros [R|b R FB|d' R N L'|R N L']; try congruence; [|].
        -- exfalso. apply F. destruct FB as (p & q & -> & <- & _). rewrite map_app, in_app_iff. right. left. reflexivity.
        -- rewrite L in L'. injection L' as <-. reflexivity.
      * split; [intros [= <-]; apply b_none; assumption|]. intros [R|b R FB|d' R N L'|R N L']; try congruence.
        exfalso. apply F. destruct FB as (p & q & -> & <- & _). rewrite map_app, in_app_iff. right. left. reflexivity.
      * split; [discriminate|]. intros [R|b R FB|d' R N L'|R N L']; try congruence.
        exfalso. apply F. destruct FB as (p & q & -> & <- & _). rewrite map_app, in_app_iff. right. left. reflexivity.
Qed.
(** C65: the attributes of a node of the body are bound one by one, in order. *)
Theorem C65_bind_node caller defaults old : forall res, bind_attributes caller defaults old = Some res <->
  exists each, Forall2 (fun a x => bind_attribute caller defaults a = Some x) old each /\ res = flat_map (fun x : option (fattr V) => match x with Some a => [a] | None => [] end) each.
Proof.
  induction old as [|a old IH]; intros res; cbn [bind_attributes].
  - split; [intros [= <-]; exists []; split; [constructor|reflexivity]|intros (each & F & ->); inversion F; reflexivity].
  - split.
    + destruct (bind_attribute caller defaults a) as [n|] eqn:E; cbn [obind]; [|discriminate]. destruct (bind_attributes caller defaults old) as [r|] eqn:R; cbn [obind]; [|discriminate]. intros [= <-].
      destruct (proj1 (IH r) eq_refl) as (each & F & ->). exists (n :: each). split; [constructor; assumption|]. destruct n; reflexivity.
    + intros (each & F & ->). inversion F as [|? x ? each' E F']; subst. rewrite E. cbn [obind]. assert (R : bind_attributes caller defaults old = Some (flat_map (fun x : option (fattr V) => match x with Some a => [a] | None => [] end) each')) by (apply IH; eauto).
      rewrite R. destruct x; reflexivity.
Qed.
(** C65: references inside a graph attribute are not bound, and a list of graphs is an error. *)
Theorem C65_graph_references_refuted (caller : list (fattr V)) defaults old : ref_attr_name old = "" ->
  (graphs_refs old = [] -> exists new, bind_attribute caller defaults old = Some (Some new) /\ g_refs new = g_refs old) /\
  (graphs_refs old <> [] -> bind_attribute caller defaults old = None).
Proof. intros R. unfold bind_attribute. rewrite R. cbn. split; [intros ->; eauto|]. destruct (graphs_refs old); [congruence|reflexivity]. Qed.
(** C65: inputs and outputs of the specialised function have the types of the call, if there is an input. *)
Theorem C65_signature_partial ins outs (ti to_ : list TP) : length ins = length ti -> length outs = length to_ -> ins <> [] ->
  exists i o, specialise_signature ins outs ti to_ = Some (i, o) /\ map fst i = ins /\ map snd i = ti /\ map fst o = outs /\ map snd o = to_.
Proof.
  intros L M N. exists (combine ins ti), (combine outs to_). assert (S1 : forall (a : list string) (b : list TP), length a = length b -> map fst (combine a b) = a /\ map snd (combine a b) = b).
  { induction a as [|x a IH]; intros [|y b] E; try discriminate; [auto|]. cbn. destruct (IH b) as [-> ->]; auto. }
  destruct (S1 ins ti L) as [-> ->], (S1 outs to_ M) as [-> ->]. split; [|auto]. unfold specialise_signature. destruct ins as [|x ins]; [congruence|]. destruct ti; [discriminate|]. cbn. reflexivity.
Qed.
Theorem C65_no_inputs_refuted (outs : list string) (to_ : list TP) ti : outs <> [] -> length outs = length to_ -> specialise_signature [] outs ti to_ = None.
Proof. intros N L. destruct outs; [congruence|]. destruct to_; [discriminate|]. reflexivity. Qed.
(** C65: types the call does not give, or gives in excess, are ignored. *)
Theorem C65_signature_truncated ins outs (ti to_ : list TP) i o : specialise_signature ins outs ti to_ = Some (i, o) -> i = combine ins ti /\ o = combine outs to_.
Proof. unfold specialise_signature. destruct (combine ins ti); [destruct (combine outs to_); [|discriminate]|]; intros [= <- <-]; auto. Qed.
End C65.
Definition attr (n r : string) (v : Z) : fattr Z := {| fa_name := n; ref_attr_name := r; fa_value := v; g_refs := []; graphs_refs := [] |}.
Example C65_nonvacuous : bind_attributes [attr "alpha" "" 7; attr "axis" "" 1] [("alpha", None); ("beta", Some (attr "beta" "" 9)); ("gamma", None)]
  [attr "a" "alpha" 0; attr "b" "beta" 0; attr "c" "gamma" 0; attr "d" "" 4] = Some [attr "a" "" 7; attr "b" "" 9; attr "d" "" 4].
Proof. reflexivity. Qed.

Print Assumptions C26_version.
Print Assumptions C26_uses_and_functions.
Print Assumptions C26_shared_iff_same_key.
Print Assumptions C65_bind_attribute_partial.
