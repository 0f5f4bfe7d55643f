(** Property C82: operators whose result has the shape of an operand, and reductions. *)
From Coq Require Import ZArith Bool Lia String List.
From Verif Require Import Prelude ShapeCoreModel ShapeCoreSpec ShapeCoreProofs ShapeBroadcastProps ShapeDimProps
  ShapeMoreModel ShapeMoreSpec.
Import ListNotations.
Open Scope string_scope.
Open Scope list_scope.
Open Scope Z_scope.

Definition one_of (r : recipe) : option nat := match r with Unary i | Arg i => Some i | _ => None end.
Definition same_nat (o : option nat) (i : nat) : bool := match o with Some j => Nat.eqb j i | None => false end.
Definition fits (r : recipe) (d : doc) : bool :=
  match d, r with
  | SameAs i, _ => same_nat (one_of r) i
  | TwoSame i j, Two r1 r2 => same_nat (one_of r1) i && same_nat (one_of r2) j
  | ZeroDim, Scalar => true
  | TwoZeroDim, Two Scalar Scalar => true
  | _, _ => false
  end.
Lemma one_of_run : forall r i args out, same_nat (one_of r) i = true ->
  (run_recipe r args = Some out <-> exists s, nth_error args i = Some s /\ out = [s]).
Proof.
  intros r i args out H.
  assert (E : run_recipe r args = do a <- nth_error args i; Some [a]).
  { destruct r; simpl in H; try discriminate; apply Nat.eqb_eq in H; subst; simpl;
    destruct (nth_error args i); simpl; auto. now rewrite unary_spec. }
  rewrite E. destruct (nth_error args i) as [s|]; simpl; split.
  - intros [= <-]. eauto.
  - intros (s' & [= ->] & ->). reflexivity.
  - discriminate.
  - intros (s' & [=] & _).
Qed.
Lemma fits_run : forall r d args out, fits r d = true ->
  (run_recipe r args = Some out <-> doc_says d args out).
Proof.
  intros r d args out H. destruct d as [i|i j| |].
  - now apply one_of_run.
  - destruct r as [| | |r1 r2]; try discriminate. cbn [fits] in H. apply andb_true_iff in H. destruct H as [H1 H2].
    cbn [run_recipe doc_says]. split.
    + destruct (run_recipe r1 args) as [x|] eqn:X; [|discriminate]. destruct (run_recipe r2 args) as [y|] eqn:Y; [|discriminate].
      cbn [obind]. intros [= <-]. apply (one_of_run _ _ _ _ H1) in X. apply (one_of_run _ _ _ _ H2) in Y.
      destruct X as (s & Hs & ->), Y as (t & Ht & ->). exists s, t. auto.
    + intros (s & t & Hs & Ht & ->).
      rewrite (proj2 (one_of_run r1 i args [s] H1)) by eauto. rewrite (proj2 (one_of_run r2 j args [t] H2)) by eauto. reflexivity.
  - destruct r; try discriminate. cbn. split; congruence.
  - destruct r as [| | |[] []]; try discriminate. cbn. split; congruence.
Qed.
Definition table_ok : bool :=
  forallb (fun g : list string * doc =>
    forallb (fun op => match assoc op recipes with Some r => fits r (snd g) | None => false end) (fst g)) documented.
Lemma table_ok_true : table_ok = true. Proof. vm_compute. reflexivity. Qed.

(** Every listed operator gives exactly the shapes its family is documented to give. *)
Theorem C82_followers_documented : forall names d op args out,
  In (names, d) documented -> In op names ->
  (simple_shape op args = Some out <-> doc_says d args out).
Proof.
  intros names d op args out Hg Ho. pose proof table_ok_true as T. unfold table_ok in T.
  rewrite forallb_forall in T. specialize (T _ Hg). cbn [fst snd] in T. rewrite forallb_forall in T.
  specialize (T _ Ho). unfold simple_shape. destruct (assoc op recipes) as [r|]; [|discriminate].
  now apply fits_run.
Qed.
(** Every operator of the table is documented or listed as an exception. *)
Lemma assoc_in : forall A (l : list (string * A)) k v, assoc k l = Some v -> In k (map fst l).
Proof.
  induction l as [|[n w] l IH]; intros k v H; [discriminate|]. simpl in H.
  destruct (String.eqb_spec n k); [left; auto|right; eauto].
Qed.
Theorem C82_table_covered : forall op args out, simple_shape op args = Some out ->
  (exists names d, In (names, d) documented /\ In op names) \/ In op broadcasting \/ In op others.
Proof.
  intros op args out H. unfold simple_shape in H. destruct (assoc op recipes) as [r|] eqn:E; [|discriminate].
  apply assoc_in in E.
  assert (C : forallb (fun n => existsb (fun g : list string * doc => existsb (String.eqb n) (fst g)) documented
    || existsb (String.eqb n) broadcasting || existsb (String.eqb n) others) (map fst recipes) = true)
    by (vm_compute; reflexivity).
  rewrite forallb_forall in C. specialize (C _ E). apply orb_true_iff in C.
  assert (M : forall l, existsb (String.eqb op) l = true -> In op l).
  { intros l K. apply existsb_exists in K. destruct K as (x & Hx & K). apply String.eqb_eq in K. now subst. }
  destruct C as [C|C]; [|auto]. apply orb_true_iff in C. destruct C as [C|C]; [|auto].
  left. apply existsb_exists in C. destruct C as ([names d] & Hg & K). exists names, d. auto.
Qed.
Theorem C82_no_operator_listed_twice : NoDup (map fst recipes) /\ NoDup (map fst reductions).
Proof.
  assert (D : forall l, (fix go l := match l with [] => true
    | x :: r => negb (existsb (String.eqb x) r) && go r end) l = true -> NoDup l).
  { induction l as [|x l IH]; intros H; constructor.
    - intros K. apply andb_true_iff in H. destruct H as [H _]. apply negb_true_iff in H.
      assert (existsb (String.eqb x) l = true) by (apply existsb_exists; exists x; split; auto; apply String.eqb_refl). congruence.
    - apply IH. apply andb_true_iff in H. tauto. }
  split; apply D; vm_compute; reflexivity.
Qed.
(** Ten operators that broadcast their operands are given the shape of the first one. *)
Theorem C82_broadcasting_ignored_refuted : forall op, In op broadcasting ->
  (forall a rest, simple_shape op (a :: rest) = Some [a]) /\
  exists a b, simple_shape op [a; b; b] = Some [a] /\ ~ broadcasts a b a.
Proof.
  intros op H.
  assert (E : assoc op recipes = Some (Unary 0) \/ assoc op recipes = Some (Arg 0)).
  { assert (C : forallb (fun n => match assoc n recipes with Some (Unary 0) | Some (Arg 0) => true | _ => false end) broadcasting = true)
      by (vm_compute; reflexivity).
    rewrite forallb_forall in C. specialize (C _ H). destruct (assoc op recipes) as [[[|]|[|]| |]|]; try discriminate; auto. }
  assert (F : forall a rest, simple_shape op (a :: rest) = Some [a]).
  { intros a rest. unfold simple_shape. destruct E as [-> | ->]; simpl; auto. now rewrite unary_spec. }
  split; auto. exists [1], [3]. split; [apply F|]. intros [_ B]. specialize (B 0%nat). cbv in B.
  destruct B as (_ & [B|B] & _); [lia|discriminate|discriminate].
Qed.
(** A size of -1 ("whatever fits") is returned as it is by aten._unsafe_view; the length of a
    Fourier transform and the lengths of the operands of aten.dot are never looked at. *)
Theorem C82_unsafe_view_inference_refuted : forall self req,
  simple_shape "aten._unsafe_view" [self; req] = Some [req] /\
  (In (-1) req -> forall n, ~ view_of n req req).
Proof.
  intros self req. split; [reflexivity|]. intros Hin n (_ & F & _).
  apply In_nth_error in Hin. destruct Hin as [k Hk].
  assert (G : forall (l m : list Z), Forall2 fits1 l m -> forall k, nth_error l k = Some (-1) -> exists o, nth_error m k = Some o /\ 0 <= o).
  { induction 1 as [|t o r1 r2 Hf Fr IH]; intros i Hi; destruct i; try discriminate.
    - injection Hi as ->. exists o. split; auto. destruct Hf as [[_ Hf]|[Hf _]]; [exact Hf|lia].
    - apply IH in Hi. exact Hi. }
  destruct (G _ _ F _ Hk) as (o & Ho & Hpos). rewrite Hk in Ho. injection Ho as <-. lia.
Qed.
Theorem C82_operands_unchecked_refuted : forall a b n,
  simple_shape "aten.dot" [a; b] = Some [[]] /\ simple_shape "aten.fft_fft" [a; n] = Some [a] /\
  simple_shape "aten.fft_ifft" [a; n] = Some [a].
Proof. intros. repeat split. Qed.

(** ** Reductions *)

Lemma reduce_spec : forall self dims keep out, self <> [] -> dims <> [] ->
  (sum_mean_dim self (Some dims) keep = Some out <->
   exists ks, Forall2 (denotes (length self)) dims ks /\ reduced keep ks self out).
Proof.
  intros self dims keep out Hs Hd. destruct keep; cbn [reduced].
  - rewrite C36_kept_dims by auto. split; intros (ks & H); exists ks; tauto.
  - now rewrite C36_dropped_dims by auto.
Qed.
(** Which of them have a [keepdim] operand, and which return the shape twice. *)
Definition without_keepdim : list string := ["prims.var"; "prims.sum"; "prims.prod"; "aten.norm.Scalar"].
Definition with_mean : list string := ["aten.var_mean.correction"; "aten.var_mean.dim"].
Definition over_dims : list string :=
  ["prims.var"; "aten.var.dim"; "aten.var.correction"; "aten.var_mean.correction"; "aten.var_mean.dim"; "aten.std.dim";
   "aten.std.correction"; "aten.any.dims"; "aten.amax"; "aten.amin"; "aten.mean.dim"; "aten.sum.dim_IntList"; "prims.sum";
   "prims.prod"; "aten.linalg_vector_norm"; "aten.linalg_norm"; "aten.frobenius_norm.dim"; "aten.norm.ScalarOpt_dim"].
Definition keeps (op : string) (keepdim : bool) : bool := keepdim && negb (existsb (String.eqb op) without_keepdim).
Definition results (op : string) (out : list Z) : list (list Z) :=
  if existsb (String.eqb op) with_mean then [out; out] else [out].
Lemma reduce_over : forall op self dims dim keepdim, In op over_dims ->
  reduce_shape op self dims dim keepdim = option_map (results op) (sum_mean_dim self dims (keeps op keepdim)).
Proof.
  intros op self dims dim keepdim H. repeat (destruct H as [<-|H]; [
    unfold reduce_shape; cbn [assoc reductions]; unfold keeps, results; cbn;
    rewrite ?andb_true_r, ?andb_false_r; now destruct (sum_mean_dim _ _ _)|]). destruct H.
Qed.
Theorem C82_reductions_over_dims : forall op self dims dim keepdim outs, In op over_dims -> self <> [] -> dims <> [] ->
  (reduce_shape op self (Some dims) dim keepdim = Some outs <->
   exists ks out, Forall2 (denotes (length self)) dims ks /\ reduced (keeps op keepdim) ks self out /\ outs = results op out).
Proof.
  intros op self dims dim keepdim outs Ho Hs Hd. rewrite reduce_over by auto. split.
  - destruct (sum_mean_dim self (Some dims) (keeps op keepdim)) as [o|] eqn:E; [|discriminate]. intros [= <-].
    apply reduce_spec in E; auto. destruct E as (ks & F & R). exists ks, o. auto.
  - intros (ks & out & F & R & ->). assert (E : sum_mean_dim self (Some dims) (keeps op keepdim) = Some out) by (apply reduce_spec; eauto).
    now rewrite E.
Qed.
Theorem C82_reductions_without_dims : forall op self dims dim keepdim, In op over_dims -> dims = None \/ dims = Some [] ->
  reduce_shape op self dims dim keepdim = Some (results op (if keeps op keepdim then repeat 1 (length self) else [])).
Proof.
  intros op self dims dim keepdim Ho Hd. rewrite reduce_over by auto.
  destruct (C36_no_dims_reduces_all self dims Hd) as [A B]. destruct (keeps op keepdim); rewrite ?A, ?B; reflexivity.
Qed.
Theorem C82_prod_over_one_dim : forall self dims dim keepdim outs, self <> [] ->
  (reduce_shape "aten.prod.dim_int" self dims dim keepdim = Some outs <->
   exists k out, denotes (length self) dim k /\ reduced keepdim [k] self out /\ outs = [out]).
Proof.
  intros self dims dim keepdim outs Hs. unfold reduce_shape. cbn [assoc reductions]. cbn [String.eqb Ascii.eqb Bool.eqb obind]. split.
  - destruct (sum_mean_dim self (Some [dim]) keepdim) as [o|] eqn:E; [|discriminate]. intros [= <-].
    apply reduce_spec in E; auto; [|discriminate]. destruct E as (ks & F & R). inversion F as [|x y l1 l2 D F' X Y]. subst. inversion F'. subst. exists y, o. auto.
  - intros (k & out & D & R & ->).
    assert (E : sum_mean_dim self (Some [dim]) keepdim = Some out) by (apply reduce_spec; auto; [discriminate|exists [k]; auto]).
    now rewrite E.
Qed.
Theorem C82_norm_of_everything : forall self dims dim keepdim, reduce_shape "aten.norm.Scalar" self dims dim keepdim = Some [[]].
Proof.
  intros. unfold reduce_shape. cbn [assoc reductions]. cbn [String.eqb Ascii.eqb Bool.eqb obind].
  now rewrite (proj1 (C36_no_dims_reduces_all self None ltac:(auto))).
Qed.
(** The primitive reductions reduce exactly the dims they are given; with no dims the shape
    function reduces all of them. *)
Theorem C82_prims_over_no_dims_refuted : forall op self dim keepdim,
  In op ["prims.var"; "prims.sum"; "prims.prod"] -> self <> [] ->
  reduce_shape op self (Some []) dim keepdim = Some [[]] /\ ~ reduced false [] self [].
Proof.
  intros op self dim keepdim Ho Hs. split.
  - rewrite C82_reductions_without_dims; [|simpl in *; tauto|auto].
    assert (K : keeps op keepdim = false) by (destruct Ho as [<-|[<-|[<-|[]]]]; unfold keeps; cbn; apply andb_false_r).
    rewrite K. destruct Ho as [<-|[<-|[<-|[]]]]; reflexivity.
  - cbn [reduced]. unfold keep_axes. rewrite (keep_ext _ (fun _ => true)) by reflexivity. rewrite keep_all. congruence.
Qed.
Example C82_nonvacuous :
  simple_shape "aten.sort" [[2; 3]; []] = Some [[2; 3]; [2; 3]] /\ simple_shape "aten.gather" [[2; 3]; []; [4; 4]] = Some [[4; 4]] /\
  simple_shape "aten.var_mean" [[2; 3]] = Some [[]; []] /\ simple_shape "aten.randint" [[]; [5; 6]] = Some [[5; 6]] /\
  reduce_shape "aten.var_mean.dim" [2; 3; 4] (Some [-1; 0]) 0 true = Some [[1; 3; 1]; [1; 3; 1]] /\
  reduce_shape "prims.sum" [2; 3; 4] (Some [1]) 0 true = Some [[2; 4]] /\
  reduce_shape "aten.prod.dim_int" [2; 3; 4] None (-1) false = Some [[2; 3]] /\ broadcasts [1] [3] [3].
Proof. repeat (split; [vm_compute; reflexivity|]). apply C28_broadcast_is_common_shape. reflexivity. Qed.

Print Assumptions C82_followers_documented.
Print Assumptions C82_table_covered.
Print Assumptions C82_reductions_over_dims.
