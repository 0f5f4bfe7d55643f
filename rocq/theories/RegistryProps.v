(** C60: names of operators, library functions and traits. *)
From Coq Require Import Ascii String Bool Arith Lia List.
From Verif Require Import Prelude RegistryModel RegistrySpec.
Import ListNotations.
Open Scope string_scope.
Open Scope list_scope.
Open Scope nat_scope.

Lemma char_eqb_eq a b : char_eqb a b = true <-> a = b.
Proof. destruct a, b; cbn; try (split; [discriminate|congruence]); try (split; reflexivity). rewrite Ascii.eqb_eq. split; congruence. Qed.
Lemma char_eqb_refl a : char_eqb a a = true. Proof. apply char_eqb_eq. reflexivity. Qed.
Lemma char_eqb_neq a b : a <> b -> char_eqb a b = false.
Proof. intro N. destruct (char_eqb a b) eqn:E; [apply char_eqb_eq in E; contradiction|reflexivity]. Qed.
Lemma text_eqb_eq a : forall b, text_eqb a b = true <-> a = b.
Proof.
  induction a as [|x a IH]; intros [|y b]; cbn; try (split; [discriminate|congruence]); [split; reflexivity|].
  rewrite andb_true_iff, char_eqb_eq, IH. split; [intros [-> ->]; reflexivity|]. intro H; inversion H; auto.
Qed.
Lemma text_eqb_refl a : text_eqb a a = true. Proof. apply text_eqb_eq. reflexivity. Qed.

(** * split and join *)
Lemma split_no c s : ~ In c s -> split c s = [s].
Proof.
  induction s as [|x s IH]; cbn; intro N; [reflexivity|]. rewrite char_eqb_neq by (intros ->; tauto). rewrite IH by tauto. reflexivity.
Qed.
Lemma split_app c s t : ~ In c s -> split c (s ++ c :: t) = s :: split c t.
Proof.
  induction s as [|x s IH]; cbn; intro N; [rewrite char_eqb_refl; reflexivity|]. rewrite char_eqb_neq by (intros ->; tauto). rewrite IH by tauto. reflexivity.
Qed.
Lemma join_split c s : join [c] (split c s) = s.
Proof.
  induction s as [|x s IH]; cbn; [reflexivity|]. destruct (char_eqb x c) eqn:E.
  - apply char_eqb_eq in E. subst. destruct (split c s) eqn:S; [destruct s; cbn in S; [discriminate|destruct (char_eqb c0 c); [discriminate|destruct (split c s); discriminate]]|].
    cbn [join app] in *. rewrite IH. reflexivity.
  - destruct (split c s) as [|h t]; [cbn in IH; subst; reflexivity|]. destruct t; cbn [join app] in *; rewrite <- IH; reflexivity.
Qed.
Lemma split_parts c s : forall t, In t (split c s) -> ~ In c t.
Proof.
  induction s as [|x s IH]; cbn; intro t; [intros [<-|[]] []|]. destruct (char_eqb x c) eqn:E.
  - intros [<-|I]; [intros []|apply IH, I].
  - destruct (split c s) as [|h r]; cbn in *.
    + intros [<-|[]] [->|[]]. rewrite char_eqb_refl in E. discriminate.
    + intros [<-|I]; [|apply IH; right; exact I]. intros [->|J]; [rewrite char_eqb_refl in E; discriminate|]. apply (IH h); [left; reflexivity|exact J].
Qed.
(** A separator that occurs in neither of two prefixes splits at the same place. *)
Lemma sep_inj (c : char) a b x y : ~ In c a -> ~ In c b -> a ++ c :: x = b ++ c :: y -> a = b /\ x = y.
Proof.
  revert b. induction a as [|u a IH]; intros [|v b] A B E; cbn in *; inversion E; subst; try tauto. destruct (IH b) as [-> ->]; auto.
Qed.
Lemma plain_no t : plain t -> ~ In dot t /\ ~ In Circle t /\ ~ In Bar t /\ ~ In colon t /\ ~ In (Ch " "%char) t /\ ~ In (Ch "("%char) t.
Proof. intro P. repeat split; intro I; destruct (P _ I) as (A & B & C & D & E & F); congruence. Qed.
Ltac plains o := match goal with H : plain_names o |- _ => let A := fresh in let B := fresh in let C := fresh in destruct H as (A & B & C);
  apply plain_no in A; apply plain_no in B; apply plain_no in C end.

Lemma op_name_dotted o : op_name o = dotted dot o.
Proof. unfold op_name, op_name_atoms, dotted, nonempty. destruct (overload_name o); reflexivity. Qed.
Lemma split_op_name o : plain_names o -> split dot (op_name o) = op_name_atoms o.
Proof.
  intro P. rewrite op_name_dotted. plains o. unfold dotted, op_name_atoms, nonempty. destruct (overload_name o) as [|x ov] eqn:E; cbn [length Nat.eqb negb app].
  - rewrite split_app, split_no by tauto. reflexivity.
  - rewrite split_app, split_app, split_no by tauto. reflexivity.
Qed.
(** The name of a function spells out the operator and the kind. *)
Theorem C60_function_name k o : plain_names o -> def_name k o = dotted Circle o ++ Bar :: kind_name k.
Proof.
  intro P. unfold def_name. rewrite split_op_name by exact P. cbn. f_equal. unfold op_name_atoms, dotted, nonempty. destruct (overload_name o); reflexivity.
Qed.
Lemma kind_no k c : c = dot \/ c = Circle \/ c = Bar -> ~ In c (kind_name k).
Proof. intros [-> |[ -> | -> ]] I; destruct k; cbn in I; repeat (destruct I as [I|I]; [discriminate|]); exact I. Qed.
Lemma kind_name_inj k k' : kind_name k = kind_name k' -> k = k'.
Proof. destruct k, k'; intro H; try reflexivity; discriminate. Qed.
Lemma dotted_inj sep o o' : (sep = dot \/ sep = Circle) -> plain_names o -> plain_names o' -> dotted sep o = dotted sep o' -> triple o = triple o'.
Proof.
  intros S P P' E. plains o. plains o'. unfold dotted in E. unfold triple.
  assert (N : forall t, plain t -> ~ In sep t) by (intros t T; apply plain_no in T; destruct S as [-> | ->]; tauto).
  assert (forall t, ~ In dot t /\ ~ In Circle t /\ ~ In Bar t /\ ~ In colon t /\ ~ In (Ch " "%char) t /\ ~ In (Ch "("%char) t -> ~ In sep t) as M by (intros t T; destruct S as [-> | ->]; tauto).
  destruct (overload_name o) as [|x ov] eqn:O, (overload_name o') as [|x' ov'] eqn:O'.
  - apply sep_inj in E; auto. destruct E as [-> ->]. reflexivity.
  - apply sep_inj in E; auto. destruct E as [_ E]. exfalso. apply (M (unqualified_name o)); [assumption|]. rewrite E. apply in_or_app. right. left. reflexivity.
  - apply sep_inj in E; auto. destruct E as [_ E]. exfalso. apply (M (unqualified_name o')); [assumption|]. rewrite <- E. apply in_or_app. right. left. reflexivity.
  - apply sep_inj in E; auto. destruct E as [-> E]. apply sep_inj in E; auto. destruct E as [-> ->]. reflexivity.
Qed.
Lemma dotted_no c o : c = Bar \/ c = Ch "("%char -> plain_names o -> ~ In c (dotted Circle o).
Proof.
  intros C P I. plains o. unfold dotted in I.
  assert (M : forall t, ~ In dot t /\ ~ In Circle t /\ ~ In Bar t /\ ~ In colon t /\ ~ In (Ch " "%char) t /\ ~ In (Ch "("%char) t -> ~ In c t) by (intros t T; destruct C as [-> | ->]; tauto).
  assert (Circle <> c) as N by (destruct C as [-> | ->]; discriminate).
  destruct (overload_name o) as [|x ov]; repeat (apply in_app_iff in I; destruct I as [I|[I|I]]; [revert I; apply M; assumption|contradiction|]); revert I; apply M; assumption.
Qed.
(** The operator and the kind are recovered from the name of the function. *)
Theorem C60_function_name_injective k o k' o' : plain_names o -> plain_names o' -> def_name k o = def_name k' o' -> triple o = triple o' /\ k = k'.
Proof.
  intros P P' E. rewrite !C60_function_name in E by assumption. apply sep_inj in E; [|apply dotted_no; auto..]. destruct E as [E K].
  split; [eapply dotted_inj; eauto|apply kind_name_inj; exact K].
Qed.

(** * The registry *)
Lemma fetch_store {K} (eqb : K -> K -> bool) (E : forall a b, eqb a b = true <-> a = b) d k o k' :
  fetch eqb (store eqb d k o) k' = if eqb k' k then Some o else fetch eqb d k'.
Proof.
  induction d as [|[x v] d IH]; cbn; [reflexivity|]. destruct (eqb k x) eqn:A; cbn.
  - apply E in A. subst. destruct (eqb k' x); reflexivity.
  - rewrite IH. destruct (eqb k' x) eqn:B; [|reflexivity]. apply E in B. subst. destruct (eqb x k) eqn:C; [|reflexivity]. apply E in C. subst. rewrite (proj2 (E k k) eq_refl) in A. discriminate.
Qed.
Lemma fetch_fold {K} (eqb : K -> K -> bool) (E : forall a b, eqb a b = true <-> a = b) (key : operator -> K) ops k o :
  fetch eqb (fold_left (fun d o => store eqb d (key o) o) ops []) k = Some o <-> registered key ops k o.
Proof.
  induction ops as [|p ops IH] using rev_ind.
  - cbn. split; [discriminate|]. intros ([|? ?] & a & Q & _); discriminate.
  - rewrite fold_left_app. cbn. rewrite fetch_store by exact E. destruct (eqb k (key p)) eqn:Q.
    + apply E in Q. subst k. split.
      * intro H. inversion H; subst. exists ops, []. split; [reflexivity|]. split; [reflexivity|]. intros ? [].
      * intros (b & a & EQ & Ko & N). destruct a as [|a0 a] using rev_ind.
        -- apply app_inj_tail in EQ. destruct EQ as [_ ->]. reflexivity.
        -- rewrite app_comm_cons, app_assoc in EQ. apply app_inj_tail in EQ. destruct EQ as [_ ->]. destruct (N a0); [apply in_or_app; right; left; reflexivity|reflexivity].
    + rewrite IH. split.
      * intros (b & a & -> & Ko & N). exists b, (a ++ [p]). split; [rewrite <- app_assoc; reflexivity|]. split; [exact Ko|].
        intros x I. apply in_app_iff in I. destruct I as [I|[<-|[]]]; [apply N, I|]. intro X. rewrite X, (proj2 (E k k) eq_refl) in Q. discriminate.
      * intros (b & a & EQ & Ko & N). destruct a as [|a0 a _] using rev_ind.
        -- apply app_inj_tail in EQ. destruct EQ as [_ ->]. rewrite Ko, (proj2 (E k k) eq_refl) in Q. discriminate.
        -- rewrite app_comm_cons, app_assoc in EQ. apply app_inj_tail in EQ. destruct EQ as [-> _]. exists b, a. split; [reflexivity|]. split; [exact Ko|]. intros x I. apply N. apply in_or_app. auto.
Qed.
Lemma triple_eqb_eq a b : triple_eqb a b = true <-> a = b.
Proof.
  destruct a as [[a1 a2] a3], b as [[b1 b2] b3]. unfold triple_eqb. cbn. rewrite !andb_true_iff, !text_eqb_eq. split; [intros [[-> ->] ->]; reflexivity|]. intro H; inversion H; auto.
Qed.
(** Lookups find the operator registered last with the key or the triple. *)
Theorem C60_lookup_by_triple ops a b c o : get_by_triple (make_registry ops) [a; b; c] = Some o <-> registered triple ops (a, b, c) o.
Proof. cbn. apply fetch_fold. exact triple_eqb_eq. Qed.
Theorem C60_lookup_by_key ops key o : get_item (make_registry ops) key = Some o <-> registered unique_key ops key o.
Proof. unfold get_item. cbn. apply fetch_fold. exact text_eqb_eq. Qed.
Lemma kind_of_name t k : kind_of t = Some k <-> t = kind_name k.
Proof.
  unfold kind_of. split.
  - destruct (text_eqb t (txt "shape")) eqn:A; [apply text_eqb_eq in A; intro H; inversion H; subst; reflexivity|].
    destruct (text_eqb t (txt "dtype")) eqn:B; [apply text_eqb_eq in B; intro H; inversion H; subst; reflexivity|].
    destruct (text_eqb t (txt "decomposition")) eqn:C; [apply text_eqb_eq in C; intro H; inversion H; subst; reflexivity|].
    destruct (text_eqb t (txt "has_value_semantics")) eqn:D; [apply text_eqb_eq in D; intro H; inversion H; subst; reflexivity|discriminate].
  - intros ->. destruct k; reflexivity.
Qed.
Lemma signature_prefix decls k o : exists rest, signature decls k o = txt "def " ++ def_name k o ++ Ch "("%char :: rest.
Proof. unfold signature. destruct (decls k o) as [ps rs]. eexists. reflexivity. Qed.
Lemma kind_no_paren k : ~ In (Ch "("%char) (kind_name k).
Proof. intro I; destruct k; cbn in I; repeat (destruct I as [I|I]; [discriminate|]); exact I. Qed.
(** The check of a Python function [def name(...] succeeds exactly when the function is named after a registered operator (the last with its
    triple) and a kind, and its first line is the signature of that operator for that kind. *)
Theorem C60_verified decls ops name rest :
  (forall o, In o ops -> plain_names o) -> ~ In (Ch "("%char) name ->
  let line := txt "def " ++ name ++ Ch "("%char :: rest in
  verify decls (make_registry ops) name (Some line) = Some tt <->
  exists k o, registered triple ops (triple o) o /\ name = def_name k o /\ line = signature decls k o.
Proof.
  intros PL NP line. unfold verify. cbn [obind]. split.
  - destruct (existsb (char_eqb Bar) line); cbn [guard obind]; [|discriminate].
    destruct (split Bar name) as [|fn [|fk [|? ?]]]; try discriminate.
    destruct (get_by_triple _ _) as [o|] eqn:G; cbn [obind]; [|discriminate]. destruct (kind_of fk) as [k|] eqn:K; cbn [obind]; [|discriminate].
    destruct (text_eqb line (signature decls k o)) eqn:L; cbn [guard obind]; [|discriminate]. intros _. apply text_eqb_eq in L.
    assert (registered triple ops (triple o) o) as R.
    { unfold get_by_triple in G. destruct (if _ : bool then _ else _) as [|a [|b [|c [|? ?]]]]; try discriminate.
      assert (R : registered triple ops (a, b, c) o) by (apply C60_lookup_by_triple; exact G). destruct R as (x & y & E & T & N). exists x, y. rewrite T. auto. }
    assert (plain_names o) as P. { apply PL. destruct R as (x & y & -> & _). apply in_or_app. right. left. reflexivity. }
    exists k, o. split; [exact R|]. split; [|exact L].
    destruct (signature_prefix decls k o) as [rest' S]. rewrite S in L. unfold line in L. apply app_inv_head in L.
    apply sep_inj in L; [tauto|exact NP|]. rewrite C60_function_name by exact P. intro I. apply in_app_iff in I. destruct I as [I|[I|I]]; [apply dotted_no in I; auto|discriminate|exact (kind_no_paren k I)].
  - intros (k & o & R & -> & L).
    assert (plain_names o) as P. { apply PL. destruct R as (x & y & -> & _). apply in_or_app. right. left. reflexivity. }
    assert (existsb (char_eqb Bar) line = true) as ->.
    { apply existsb_exists. exists Bar. split; [|reflexivity]. unfold line. apply in_or_app. right. apply in_or_app. left. rewrite C60_function_name by exact P. apply in_or_app. right. left. reflexivity. }
    cbn [guard obind]. rewrite C60_function_name by exact P. rewrite split_app by (apply dotted_no; auto). rewrite split_no by (apply kind_no; auto).
    pose proof (proj2 (C60_lookup_by_triple ops (namespace o) (unqualified_name o) (overload_name o) o) R) as G.
    assert ((if length (split Circle (dotted Circle o)) =? 2 then split Circle (dotted Circle o) ++ [[]] else split Circle (dotted Circle o)) = [namespace o; unqualified_name o; overload_name o]) as ->.
    { plains o. unfold dotted. destruct (overload_name o) as [|x ov] eqn:O.
      - rewrite split_app, split_no by tauto. reflexivity.
      - rewrite split_app, split_app, split_no by tauto. reflexivity. }
    rewrite G. cbn [obind]. rewrite (proj2 (kind_of_name _ k) eq_refl). cbn [obind]. rewrite L, text_eqb_refl. reflexivity.
Qed.

(** * Symbols *)
Lemma dotted_circle o : plain_names o -> map (fun c => match c with Circle => dot | _ => c end) (dotted Circle o) = dotted dot o.
Proof.
  intro P. plains o.
  assert (M : forall t, ~ In Circle t -> map (fun c => match c with Circle => dot | _ => c end) t = t).
  { induction t as [|x t IH]; cbn; intro N; [reflexivity|]. rewrite IH by tauto. destruct x; try reflexivity. destruct N. auto. }
  unfold dotted. pose proof (M (overload_name o)) as MO. destruct (overload_name o) as [|x ov]; rewrite map_app; change (map ?f (Circle :: ?l)) with (dot :: map f l); rewrite ?map_app; rewrite !(M (namespace o)), !(M (unqualified_name o)) by tauto; [reflexivity|].
  change (map ?f (Circle :: ?l)) with (dot :: map f l). rewrite MO by tauto. reflexivity.
Qed.
Lemma strip_prefix_iff p s r : strip_prefix p s = Some r <-> s = p ++ r.
Proof.
  revert s. induction p as [|x p IH]; intros s; cbn; [split; congruence|]. destruct s as [|y s]; [split; [discriminate|discriminate]|].
  destruct (char_eqb x y) eqn:E; [apply char_eqb_eq in E; subst; rewrite IH; split; [intros ->; reflexivity|]; intro H; inversion H; reflexivity|].
  split; [discriminate|]. intro H. inversion H; subst. rewrite char_eqb_refl in E. discriminate.
Qed.
(** The function generated for an operator is the one looked up for it: as an operator of the dialect, as the value-semantic variant of one, and
    as a torch.operator. Decompositions are never looked up. *)
Theorem C60_symbol_found k o : plain_names o -> namespace o <> txt "valsem" -> k <> KDecomposition ->
  library_symbol (def_name k o) <> None /\
  looked_up k (op_name o) None = library_symbol (def_name k o) /\
  looked_up k (txt "valsem." ++ op_name o) None = library_symbol (def_name k o) /\
  forall n, looked_up k n (Some (op_name o)) = library_symbol (def_name k o).
Proof.
  intros P NV NK. assert (library_symbol (def_name k o) = do p <- library_function_prefix k; Some (p ++ op_name o)) as ->.
  { unfold library_symbol. rewrite C60_function_name by exact P. rewrite split_app by (apply dotted_no; auto). rewrite split_no by (apply kind_no; auto).
    rewrite dotted_circle by exact P. rewrite <- op_name_dotted. destruct k; try reflexivity. congruence. }
  unfold looked_up. destruct (library_function_prefix k) as [p|] eqn:K; cbn [obind].
  - split; [discriminate|]. split; [|split].
    + destruct (strip_prefix (txt "valsem.") (op_name o)) as [r|] eqn:S; [|reflexivity]. apply strip_prefix_iff in S. exfalso. apply NV.
      rewrite op_name_dotted in S. plains o. unfold dotted in S.
      assert (~ In dot (txt "valsem")) as D by (cbn; intro I; repeat (destruct I as [I|I]; [discriminate|]); exact I).
      change (txt "valsem." ++ r) with (txt "valsem" ++ dot :: r) in S.
      destruct (overload_name o); apply sep_inj in S; tauto.
    + rewrite (proj2 (strip_prefix_iff (txt "valsem.") (txt "valsem." ++ op_name o) (op_name o)) eq_refl). reflexivity.
    + reflexivity.
  - destruct k; try discriminate. congruence.
Qed.
(** No two operators share a library function. *)
Theorem C60_symbols_distinct k o k' o' : plain_names o -> plain_names o' -> k <> KDecomposition ->
  looked_up k [] (Some (op_name o)) = looked_up k' [] (Some (op_name o')) -> triple o = triple o' /\ k = k'.
Proof.
  intros P P' NK E. assert (k = k') as <-.
  { unfold looked_up in E. destruct k, k'; cbn in E; try reflexivity; try discriminate; try congruence. }
  split; [|reflexivity]. unfold looked_up in E. destruct (library_function_prefix k) eqn:K; cbn [obind] in E; [|destruct k; try discriminate; congruence].
  inversion E as [Q]. apply app_inv_head in Q. rewrite !op_name_dotted in Q. apply (dotted_inj dot); auto.
Qed.

(** * Keys *)
Lemma partition_spec ns rest : ~ In colon ns -> partition (ns ++ colon :: colon :: rest) = (ns, rest).
Proof.
  induction ns as [|x ns IH]; intro N; [reflexivity|].
  assert (char_eqb x colon = false) as X by (apply char_eqb_neq; intros ->; apply N; left; reflexivity).
  assert (partition (ns ++ colon :: colon :: rest) = (ns, rest)) as IH' by (apply IH; intro; apply N; right; assumption).
  destruct ns as [|y ns]; cbn [app] in *; cbn [partition]; rewrite X; cbn [andb]; cbn [partition] in IH'; rewrite IH'; reflexivity.
Qed.
(** The operator made from [ns::name] has those names. *)
Theorem C60_parsed_name ns name ov a b args rets : ~ In colon ns -> triple (jit_operator (ns ++ colon :: colon :: name) ov a b args rets) = (ns, name, ov).
Proof. intro N. unfold jit_operator. rewrite partition_spec by exact N. reflexivity. Qed.
(** Operators with the same key have the same triple. *)
Theorem C60_unique_key o o' : plain_names o -> plain_names o' -> unique_key o = unique_key o' -> triple o = triple o'.
Proof.
  intros P P' E. pose proof P as P0. pose proof P' as P0'. plains o. plains o'. unfold unique_key in E.
  change (txt "::") with ([colon] ++ [colon]) in E. rewrite <- !app_assoc in E. cbn [app] in E.
  apply sep_inj in E; [|tauto..]. destruct E as [EN E]. inversion E as [E1]. clear E. unfold triple. rewrite EN.
  change (txt " : (") with (Ch " "%char :: txt ": (") in E1.
  assert (S : forall o, ~ In (Ch " "%char) (unqualified_name o) -> ~ In (Ch " "%char) (overload_name o) ->
    ~ In (Ch " "%char) (unqualified_name o ++ (if nonempty (overload_name o) then txt "." ++ overload_name o else []))).
  { intros x A B I. apply in_app_iff in I. destruct I as [I|I]; [tauto|]. destruct (nonempty (overload_name x)); [|destruct I]. cbn in I. destruct I as [I|I]; [discriminate|tauto]. }
  rewrite (app_assoc (unqualified_name o)), (app_assoc (unqualified_name o')) in E1.
  apply sep_inj in E1; [|apply S; tauto..]. destruct E1 as [E2 _].
  assert (D : op_name o = op_name o').
  { rewrite !op_name_dotted. unfold dotted. rewrite EN. unfold nonempty in E2. destruct (overload_name o), (overload_name o'); cbn in E2; rewrite ?app_nil_r in E2; apply (f_equal (fun z => namespace o' ++ dot :: z)); exact E2. }
  rewrite !op_name_dotted in D. assert (T : triple o = triple o') by (eapply dotted_inj; [left; reflexivity| | |exact D]; assumption). unfold triple in T. rewrite EN in T. exact T.
Qed.
(** The class names of different operators can be equal. *)
Definition named (ns name ov : string) : operator :=
  {| namespace := txt ns; unqualified_name := txt name; overload_name := txt ov; is_vararg := false; is_varret := false; arguments := []; returns := [] |}.
Theorem C60_class_name_refuted : exists o o', triple o <> triple o' /\ op_name o <> op_name o' /\ cpp_class_name o = cpp_class_name o'.
Proof. exists (named "aten" "max_dim" ""), (named "aten" "max" "dim"). split; [discriminate|]. split; [discriminate|]. reflexivity. Qed.
(** A class name is made of the capitalised words of the name, and [Op]. *)
Fixpoint small (l : list (ascii * ascii)) (a : ascii) : option ascii :=
  match l with [] => None | (x, y) :: r => if Ascii.eqb a x then Some y else small r a end.
Lemma small_in l a b : NoDup (map fst l) -> (In (a, b) l <-> small l a = Some b).
Proof.
  induction l as [|[x y] l IH]; intro N; cbn; [split; [intros []|discriminate]|]. inversion N; subst.
  destruct (Ascii.eqb_spec a x) as [->|D].
  - split; [intros [E|I]; [congruence|]|intros E; left; congruence]. exfalso. apply H1. apply in_map_iff. exists (x, b). auto.
  - rewrite <- IH by assumption. split; [intros [E|I]; [congruence|exact I]|auto].
Qed.
Fixpoint distinct (l : list ascii) : bool := match l with [] => true | x :: r => negb (existsb (Ascii.eqb x) r) && distinct r end.
Lemma distinct_nodup l : distinct l = true -> NoDup l.
Proof.
  induction l as [|x l IH]; cbn; intro H; constructor; apply andb_true_iff in H; [|apply IH, H].
  destruct H as [H _]. intro I. apply negb_true_iff in H. apply not_true_iff_false in H. apply H. apply existsb_exists. exists x. split; [exact I|apply Ascii.eqb_refl].
Qed.
Lemma alphabet_nodup : NoDup (map fst alphabet). Proof. apply distinct_nodup. vm_compute. reflexivity. Qed.
Lemma capital_iff c d : capital c d <-> d = match c with Ch a => match small alphabet a with Some b => Ch b | None => c end | _ => c end.
Proof.
  split.
  - intros H. inversion H; subst; [rewrite (proj1 (small_in alphabet a b alphabet_nodup) H0); reflexivity|].
    destruct d as [a| |]; try reflexivity. destruct (small alphabet a) as [b|] eqn:E; [|reflexivity].
    apply small_in in E; [|exact alphabet_nodup]. exfalso. exact (H0 _ _ E eq_refl).
  - intros ->. destruct c as [a| |]; [|apply capital_other; discriminate..]. destruct (small alphabet a) as [b|] eqn:E.
    + apply capital_small. apply small_in; [exact alphabet_nodup|exact E].
    + apply capital_other. intros x y I Q. inversion Q; subst. apply small_in in I; [congruence|exact alphabet_nodup].
Qed.
Lemma upper_capital c : capital c (upper c).
Proof.
  apply capital_iff. destruct c as [a| |]; try reflexivity. destruct a as [[] [] [] [] [] [] [] []]; reflexivity.
Qed.
Lemma split_words part words : made_of part words -> split underscore part = words.
Proof.
  intros [N [W ->]]. induction words as [|w ws IH]; [congruence|]. destruct ws as [|w' ws]; cbn [join].
  - apply split_no. apply W. left. reflexivity.
  - cbn [app]. rewrite split_app by (apply W; left; reflexivity). f_equal. apply IH; [discriminate|]. intros x I. apply W. right. exact I.
Qed.
Theorem C60_class_name o parts words classes :
  parts = [namespace o; unqualified_name o] ++ match overload_name o with [] => [] | ov => [ov] end ->
  Forall2 made_of parts words -> hd [] (concat words) <> [] -> Forall2 class_word (concat words) classes ->
  cpp_class_name o = concat classes ++ txt "Op".
Proof.
  intros EP M H C. unfold cpp_class_name.
  assert (A : op_name_atoms o = parts) by (subst parts; unfold op_name_atoms, nonempty; destruct (overload_name o); reflexivity).
  rewrite A. clear A EP.
  assert (S : flat_map (fun atom => map (fun s => if nonempty s then s else [underscore]) (split underscore atom)) parts =
              map (fun s => if nonempty s then s else [underscore]) (concat words)).
  { clear - M. induction M as [|p ws ps wss M1 M IH]; [reflexivity|]. cbn. rewrite (split_words _ _ M1), IH, map_app. reflexivity. }
  rewrite S.
  assert (Q : map uppercase_first_letter (map (fun s => if nonempty s then s else [underscore]) (concat words)) = classes).
  { clear - C. induction C as [|w c ws cs W C IH]; [reflexivity|]. cbn [map]. rewrite IH. f_equal. inversion W; subst; [reflexivity|].
    cbn. f_equal. pose proof (upper_capital c0) as U.
    apply capital_iff in U. rewrite U. symmetry. apply capital_iff. assumption. }
  rewrite Q. clear S Q. destruct (concat words) as [|w ws] eqn:CW; [contradiction|]. cbn [hd] in H. inversion C; subst. inversion H2; subst; [congruence|].
  cbn [concat app]. cbn [lstrip].
  assert (NU : char_eqb c' underscore = false).
  { apply char_eqb_neq. intros ->. inversion H0; subst.
    - cbn in H5. repeat (destruct H5 as [H5|H5]; [discriminate|]). destruct H5.
    - destruct words as [|w1 words]; [discriminate|]. inversion M as [|p0 w0 ps0 ws0 M1 M2]; subst. destruct M1 as [N1 [N2 _]]. destruct w1 as [|w11 w1]; [congruence|].
      cbn in CW. inversion CW; subst. apply (N2 (underscore :: r)); left; reflexivity. }
  rewrite NU. reflexivity.
Qed.
(** What the first line of a function must be. *)
Theorem C60_signature decls k o ps rs : plain_names o -> decls k o = (ps, rs) ->
  (forall p, In p ps -> p <> []) -> (forall r, In r rs -> r <> []) ->
  exists result, signature decls k o = txt "def " ++ dotted Circle o ++ Bar :: kind_name k ++ Ch "("%char :: join (txt ", ") ps ++ txt ") -> " ++ result ++ [colon] /\
    (rs = [] -> result = txt "None") /\ (forall r, rs = [r] -> result = r) /\
    ((2 <= length rs)%nat -> result = txt "Tuple[" ++ join (txt ", ") rs ++ txt "]").
Proof.
  intros P D NP NR. exists (result_text rs). unfold signature. rewrite D, C60_function_name by exact P.
  assert (FK : forall l : list text, (forall p, In p l -> p <> []) -> filter nonempty l = l).
  { induction l as [|x l IH]; intros H; [reflexivity|]. cbn. destruct x as [|c x]; [exfalso; apply (H []); [left; reflexivity|reflexivity]|]. cbn. rewrite IH; [reflexivity|].
    intros p I. apply H. right. exact I. }
  rewrite (FK ps NP), (FK rs NR). split; [|split; [intros ->; reflexivity|split; [intros r ->; reflexivity|]]].
  - rewrite <- !app_assoc. reflexivity.
  - destruct rs as [|a [|b rs]]; cbn [length]; intro L; try lia. reflexivity.
Qed.
(** A class name is a legal start of an identifier: it does not begin with an underscore. *)
Theorem C60_class_name_start o : match cpp_class_name o with [] => False | c :: _ => c <> underscore end.
Proof.
  unfold cpp_class_name. set (s := concat _). clearbody s. induction s as [|x s IH]; cbn; [discriminate|].
  destruct (char_eqb x underscore) eqn:E; [exact IH|]. intros ->. rewrite char_eqb_refl in E. discriminate.
Qed.

(** * Value semantics and traits *)
Theorem C60_readonly o : is_readonly o = true <-> writes_nothing o.
Proof.
  unfold is_readonly, writes_nothing. rewrite forallb_forall. split; intros H x I.
  - apply in_app_iff in I. specialize (H x I). destruct (alias_info x) as [[]|]; congruence.
  - rewrite in_app_iff in I. specialize (H x I). destruct (alias_info x) as [[]|]; congruence.
Qed.
(** Value semantics: fixed arity, no alias of any kind, and not one of the three exceptions. *)
Theorem C60_value_semantics o : has_value_semantics o = true <->
  is_vararg o = false /\ is_varret o = false /\ no_aliases o /\
  ~ In (unique_key o) [txt "prim::unchecked_cast : (t) -> (t)"; txt "aten::__is__ : (t1, t2) -> (bool)"; txt "aten::__isnot__ : (t1, t2) -> (bool)"].
Proof.
  assert (NA : existsb (fun x => match alias_info x with Some _ => true | None => false end) (arguments o ++ returns o) = false <-> no_aliases o).
  { unfold no_aliases. split.
    - intros H x I. apply in_app_iff in I. destruct (alias_info x) eqn:A; [|reflexivity].
      exfalso. apply not_true_iff_false in H. apply H. apply existsb_exists. exists x. rewrite A. auto.
    - intro H. apply not_true_iff_false. intro X. apply existsb_exists in X. destruct X as (x & I & X). rewrite in_app_iff in I. rewrite (H x I) in X. discriminate. }
  assert (RO : no_aliases o -> is_readonly o = true).
  { intro N. apply C60_readonly. intros x I. rewrite (N x I). discriminate. }
  unfold has_value_semantics. split.
  - destruct (is_readonly o); cbn [negb]; [|discriminate]. destruct (is_vararg o), (is_varret o); cbn [orb]; try discriminate.
    destruct (existsb _ _); [discriminate|]. intro H. split; [reflexivity|]. split; [reflexivity|]. split; [apply NA; reflexivity|].
    intros [I|[I|[I|[]]]]; rewrite <- I in H; vm_compute in H; discriminate.
  - intros (-> & -> & N & X). rewrite (RO N). cbn [negb orb]. rewrite (proj2 NA N). cbn in X.
    destruct (text_eqb (unique_key o) (txt "prim::unchecked_cast : (t) -> (t)")) eqn:A; [apply text_eqb_eq in A; symmetry in A; tauto|].
    destruct (text_eqb (unique_key o) (txt "aten::__is__ : (t1, t2) -> (bool)")) eqn:B; [apply text_eqb_eq in B; symmetry in B; tauto|].
    destruct (text_eqb (unique_key o) (txt "aten::__isnot__ : (t1, t2) -> (bool)")) eqn:C; [apply text_eqb_eq in C; symmetry in C; tauto|]. reflexivity.
Qed.
(** So value semantics implies that nothing is written. *)
Theorem C60_value_semantics_readonly o : has_value_semantics o = true -> writes_nothing o.
Proof. intro H. apply C60_value_semantics in H. destruct H as (_ & _ & N & _). intros x I. rewrite (N x I). discriminate. Qed.
(** The traits of an emitted operator: what was asked for and what its schema allows. *)
Theorem C60_traits o traits t : In t (op_traits o traits) <->
  In t traits \/ t = txt "AllowsTypeRefinement" \/ (t = txt "HasValueSemantics" /\ has_value_semantics o = true) \/ (t = txt "ReadOnly" /\ writes_nothing o).
Proof.
  unfold op_traits. rewrite !in_app_iff. rewrite <- C60_readonly. cbn [In].
  destruct (has_value_semantics o), (is_readonly o); cbn [In]; intuition congruence.
Qed.
(** An operator and its in-place variant: [name] and [name_] with the same overload, except that [functional] disappears. Only the variant of an
    ordinary operator is marked as one. *)
Theorem C60_mutating_variants ops key traits o tr v tv :
  emit_with_mutating_variants (make_registry ops) key traits = Some ((o, tr), (v, tv)) ->
  registered unique_key ops key o /\
  namespace v = namespace o /\ unqualified_name v = unqualified_name o ++ [underscore] /\
  (overload_name o = txt "functional" -> overload_name v = [] /\ tv = op_traits v []) /\
  (overload_name o <> txt "functional" -> overload_name v = overload_name o /\ tv = op_traits v [txt "IsTrailingUnderscoreInplaceVariant"]) /\
  tr = op_traits o traits /\ registered triple ops (triple v) v.
Proof.
  unfold emit_with_mutating_variants. destruct (get_item _ _) as [o'|] eqn:G; cbn [obind]; [|discriminate].
  destruct (get_by_triple _ _) as [v'|] eqn:T; cbn [obind]; [|discriminate]. intro H. inversion H; subst. clear H.
  apply C60_lookup_by_key in G. apply C60_lookup_by_triple in T. split; [exact G|].
  assert (E : triple v = (namespace o, unqualified_name o ++ [underscore], if negb (text_eqb (overload_name o) (txt "functional")) then overload_name o else [])) by (destruct T as (? & ? & _ & E & _); exact E).
  assert (R : registered triple ops (triple v) v) by (rewrite E; exact T).
  unfold triple in E. inversion E as [[E1 E2 E3]]. rewrite E1, E2, E3. split; [reflexivity|]. split; [reflexivity|].
  destruct (text_eqb (overload_name o) (txt "functional")) eqn:F.
  - apply text_eqb_eq in F. split; [auto|]. split; [congruence|]. auto.
  - split; [intro Q; rewrite Q in F; discriminate|]. split; [auto|]. auto.
Qed.

Definition op (name ov : string) (args : list sig_attr) : operator := jit_operator (txt name) (txt ov) false false args [{| a_type := txt "Tensor"; alias_info := None |}].
Definition tensor_arg : sig_attr := {| a_type := txt "Tensor"; alias_info := None |}.
Definition written : sig_attr := {| a_type := txt "Tensor"; alias_info := Some true |}.
Definition decls (k : kind) (o : operator) : list text * list text := ([txt "self: List[int]"; []], [txt "List[int]"]).
Example C60_nonvacuous :
  let add := op "aten::add" "Tensor" [tensor_arg; tensor_arg] in
  let add_ := op "aten::add_" "Tensor" [written; tensor_arg] in
  let tanh := op "aten::tanh" "" [tensor_arg] in
  let ops := [tanh; add; add_] in
  unique_key add = txt "aten::add.Tensor : (Tensor, Tensor) -> (Tensor)" /\
  op_name add = txt "aten.add.Tensor" /\ cpp_class_name add_ = txt "AtenAdd_TensorOp" /\
  cpp_class_name (op "aten::_log_softmax" "" []) = txt "Aten_LogSoftmaxOp" /\
  def_name KShape add = txt "aten" ++ Circle :: txt "add" ++ Circle :: txt "Tensor" ++ Bar :: txt "shape" /\
  library_symbol (def_name KDtype tanh) = Some (txt "__torch_mlir_dtype_fn.aten.tanh") /\
  signature decls KShape tanh = txt "def aten" ++ Circle :: txt "tanh" ++ Bar :: txt "shape(self: List[int]) -> List[int]:" /\
  verify decls (make_registry ops) (def_name KShape tanh) (Some (signature decls KShape tanh)) = Some tt /\
  verify decls (make_registry ops) (def_name KShape (op "aten::sin" "" [])) (Some (signature decls KShape tanh)) = None /\
  has_value_semantics add = true /\ has_value_semantics add_ = false /\ is_readonly add_ = false /\
  emit_with_mutating_variants (make_registry ops) (unique_key add) [] =
    Some ((add, [txt "AllowsTypeRefinement"; txt "HasValueSemantics"; txt "ReadOnly"]), (add_, [txt "IsTrailingUnderscoreInplaceVariant"; txt "AllowsTypeRefinement"])) /\
  emit_with_mutating_variants (make_registry ops) (unique_key tanh) [] = None /\
  result_text [] = txt "None" /\ result_text [txt "int"; txt "int"] = txt "Tuple[int, int]".
Proof. vm_compute. repeat split. Qed.

Example C60_class_name_nonvacuous :
  let o := named "aten" "_log_softmax" "" in
  cpp_class_name o = txt "Aten_LogSoftmaxOp" /\
  Forall2 made_of [namespace o; unqualified_name o] [[txt "aten"]; [[]; txt "log"; txt "softmax"]] /\
  Forall2 class_word (concat [[txt "aten"]; [[]; txt "log"; txt "softmax"]]) [txt "Aten"; txt "_"; txt "Log"; txt "Softmax"].
Proof.
  cbn zeta. split; [reflexivity|]. split.
  - repeat constructor; try discriminate; intros w I; cbn in I; repeat (destruct I as [<-|I]; [cbn; intuition discriminate|]); destruct I.
  - repeat constructor; apply capital_iff; reflexivity.
Qed.

Print Assumptions C60_verified.
Print Assumptions C60_symbol_found.
Print Assumptions C60_unique_key.
Print Assumptions C60_class_name.
Print Assumptions C60_signature.
Print Assumptions C60_value_semantics.
Print Assumptions C60_mutating_variants.
