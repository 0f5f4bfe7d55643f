(** Lemmas for C120. *)
From Coq Require Import ZArith Bool String Lia List.
From Verif Require Import Prelude DtypeModel JitTypesModel JitTypesSpec JitTypesProps IValueModel IValueSpec.
From Verif Require TypesModel.
Import ListNotations.
Open Scope string_scope.
Open Scope list_scope.
Open Scope nat_scope.

Section Tree.
Context (P : ivalue -> Prop).
Context (Hb : forall b, P (VBool b)) (Hi : forall z, P (VInt z)) (Hd : forall d, P (VDouble d)) (Hs : forall s, P (VString s)) (Hn : P VNone)
  (Hl : forall i e l, Forall P l -> P (VList i e l)) (Hdi : forall i k e l, Forall (fun p => P (fst p) /\ P (snd p)) l -> P (VDict i k e l)) (Htu : forall i l, Forall P l -> P (VTuple i l))
  (Hte : forall i t, P (VTensor i t)) (Hm : forall i c cu l, Forall P l -> P (VModule i c cu l)) (Hp : forall i w b, P w -> (forall b', b = Some b' -> P b') -> P (VLinearParams i w b)) (Hu : forall i, P (VUnsupported i)).
Fixpoint ivalue_tree (x : ivalue) : P x :=
  let all := fix all l : Forall P l := match l with [] => Forall_nil _ | x :: r => Forall_cons x (ivalue_tree x) (all r) end in
  match x with
  | VBool b => Hb b | VInt z => Hi z | VDouble d => Hd d | VString s => Hs s | VNone => Hn
  | VList i e l => Hl i e l (all l)
  | VDict i k e l => Hdi i k e l ((fix two l : Forall (fun p => P (fst p) /\ P (snd p)) l := match l with [] => Forall_nil _ | (a, b) :: r => Forall_cons (a, b) (conj (ivalue_tree a) (ivalue_tree b)) (two r) end) l)
  | VTuple i l => Htu i l (all l)
  | VTensor i t => Hte i t
  | VModule i c cu l => Hm i c cu l (all l)
  | VLinearParams i w b => Hp i w b (ivalue_tree w) (fun b' E => match b as b0 return (b0 = Some b' -> P b') with Some y => fun E => eq_rect y P (ivalue_tree y) b' (f_equal (fun o => match o with Some z => z | None => y end) E) | None => fun E => match (eq_ind None (fun o => match o with None => True | Some _ => False end) Logic.I (Some b') E) with end end E)
  | VUnsupported i => Hu i
  end.
End Tree.
(** Sizes *)
Fixpoint size (x : ivalue) : nat :=
  match x with
  | VList _ _ l | VTuple _ l | VModule _ _ _ l => S (list_sum (map size l))
  | VDict _ _ _ l => S (list_sum (map (fun p => size (fst p) + size (snd p)) l))
  | VLinearParams _ w b => S (size w + match b with Some b => size b | None => 0 end)
  | VTensor _ _ => 2
  | _ => 1
  end.
Lemma in_sum {A} (f : A -> nat) l x : In x l -> f x <= list_sum (map f l).
Proof. unfold list_sum. induction l as [|y l IH]; [intros []|]. cbn. intros [->|K]; [lia|]. specialize (IH K). lia. Qed.
Lemma child_size x y : In y (children x) -> size y < size x.
Proof.
  destruct x as [| | | | |i e l|i k e l|i l|i t|i c cu l|i w b|i]; cbn [children size]; try solve [intros []].
  - intros K. pose proof (in_sum size l y K). lia.
  - intros K. apply in_flat_map in K as (p & K & [<-|[<-|[]]]); pose proof (in_sum (fun p => size (fst p) + size (snd p)) l p K); cbn in *; lia.
  - intros K. pose proof (in_sum size l y K). lia.
  - destruct (quantized t) as [[s z|]|]; cbn; [intros [<-|[<-|[]]]; cbn; lia|tauto|tauto].
  - intros K. pose proof (in_sum size l y K). lia.
  - intros [<-|K]; [lia|]. destruct b; [|destruct K]. destruct K as [<-|[]]. lia.
Qed.
Lemma part_size x y : part x y -> size y <= size x.
Proof. induction 1 as [|x y z K _ IH]; [lia|]. apply child_size in K. lia. Qed.
Lemma part_trans x y z : part x y -> part y z -> part x z.
Proof. induction 1 as [|x y' y K _ IH]; [auto|]. intros L. apply (part_child x y' z K). auto. Qed.

(** Sameness *)
Lemma same_double_sym a b : same_double a b = same_double b a.
Proof. destruct a, b; cbn; try reflexivity. apply Z.eqb_sym. Qed.
Lemma same_sym x y : same x y = same y x.
Proof. destruct x, y; cbn; try reflexivity; try apply Nat.eqb_sym; try apply Z.eqb_sym; try apply String.eqb_sym; try apply same_double_sym. destruct b, b0; reflexivity. Qed.
Lemma stands_same y x : stands y x -> forall z, same z y = same z x.
Proof.
  intros [->|(a & b & -> & -> & A & B)] z; [reflexivity|]. destruct z; try reflexivity. cbn. destruct A as [-> | ->], B as [-> | ->]; destruct d; reflexivity.
Qed.
Lemma same_self x : x <> VDouble NaN -> same x x = true.
Proof.
  destruct x; cbn; intros N; try reflexivity; try apply Nat.eqb_refl; try apply Z.eqb_refl; try apply String.eqb_refl; [apply eqb_reflx|]. destruct d; cbn; try reflexivity; [now contradiction N|apply Z.eqb_refl].
Qed.

Section Import.
Context {func : Type} (opts : options) (import_function : nat -> option func) (get_functions : nat -> list nat) (exported : class_type -> list bool * list bool).
Context (U : ivalue -> Prop) (closed : forall x y, U x -> In y (children x) -> U y).
Context (U_object : forall x y i, U x -> U y -> address x = Some i -> address y = Some i -> x = y) (U_tensor : forall i t t', U (VTensor i t) -> U (VTensor i t') -> t = t').
Notation state := (@state func).
Notation import_value := (import_value opts import_function get_functions exported).

Lemma same_stands x y : U x -> U y -> same y x = true -> stands y x.
Proof.
  intros Ux Uy E. unfold stands.
  assert (A : forall i j, address x = Some i -> address y = Some j -> (j =? i) = true -> y = x).
  { intros i j X Y K. apply Nat.eqb_eq in K. subst j. now apply (U_object y x i). }
  destruct x, y; cbn in E; try discriminate; cbn [address] in A; try (left; eapply A; [reflexivity|reflexivity|exact E]).
  - left. apply eqb_prop in E. now subst.
  - left. apply Z.eqb_eq in E. now subst.
  - destruct d, d0; cbn in E; try discriminate; auto; try (right; eexists; eexists; split; [reflexivity|]; split; [reflexivity|]; unfold zero; solve [auto]). apply Z.eqb_eq in E. subst. auto.
  - left. apply String.eqb_eq in E. now subst.
  - now left.
  - left. apply Nat.eqb_eq in E. subst. f_equal. now apply (U_tensor id).
Qed.
Lemma parts_U x y : U x -> part x y -> U y.
Proof. intros Ux L. induction L as [|x y z K _ IH]; [exact Ux|]. apply IH. now apply (closed x). Qed.

Definition known (st : state) (v : nat) (x : ivalue) : Prop := exists y, In (y, v) (value_map st) /\ stands y x.
Record inv (p : option nat) (st : state) : Prop := {
  i_key : forall x v, In (x, v) (value_map st) -> U x;
  i_built : forall x v, In (x, v) (value_map st) -> denotes opts (ops st) (known st) v x;
  i_values : NoDup (map snd (value_map st));
  i_apart : forall x v y u, In (x, v) (value_map st) -> In (y, u) (value_map st) -> same x y = true -> v = u;
  i_ssa : forall i o, nth_error (ops st) i = Some o -> Forall (fun v => v < i) (operands o);
  i_seen : forall i t v, In (VTensor i t, v) (value_map st) -> In (storage t) (seen_storages st);
  i_stored : forall s, In s (seen_storages st) -> p = Some s \/ exists i t v, In (VTensor i t, v) (value_map st) /\ storage t = s;
  i_separate : forall i t v i' t' v', In (VTensor i t, v) (value_map st) -> In (VTensor i' t', v') (value_map st) -> storage t = storage t' -> i = i';
  i_unit : forall i c cu l v, In (VModule i c cu l, v) (value_map st) -> compilation_unit st = Some cu /\ In (c_id c) (class_types st);
  i_classes : class_ids (ops st) = rev (class_types st);
  i_distinct : NoDup (class_types st);
  i_described : forall id n a m, In (OClass id n a m) (ops st) -> exists c, (exists i cu l, U (VModule i c cu l)) /\ c_id c = id /\ class_described opts exported c n a m;
  i_functions : match compilation_unit st with None => functions_of (ops st) = [] | Some cu => map Some (functions_of (ops st)) = map import_function (get_functions cu) end;
  i_module : forall cu, compilation_unit st = Some cu -> exists i c l, U (VModule i c cu l) }.
(** What an import adds: operations, and entries for [P] *)
Record step (P : ivalue -> Prop) (st st' : state) : Prop := {
  s_ops : exists more, ops st' = ops st ++ more;
  s_map : forall y v, In (y, v) (value_map st) -> In (y, v) (value_map st');
  s_new : forall y v, In (y, v) (value_map st') -> In (y, v) (value_map st) \/ P y;
  s_unit : forall cu, compilation_unit st = Some cu -> compilation_unit st' = Some cu;
  s_classes : incl (class_types st) (class_types st') }.
Lemma step_refl P st : step P st st.
Proof. split; auto; [exists []; now rewrite app_nil_r|apply incl_refl]. Qed.
Lemma step_trans P a b c : step P a b -> step P b c -> step P a c.
Proof.
  intros [[m A] B C D E] [[m' A'] B' C' D' E']. split; auto; [exists (m ++ m'); now rewrite A', A, app_assoc| |eapply incl_tran; eassumption].
  intros y v K. apply C' in K as [K|K]; auto.
Qed.
Lemma step_weak (P Q : ivalue -> Prop) a b : (forall x, P x -> Q x) -> step P a b -> step Q a b.
Proof. intros H [A B C D E]. split; auto. intros y v K. apply C in K as [K|K]; auto. Qed.
Lemma step_known P a b v x : step P a b -> known a v x -> known b v x.
Proof. intros S (y & K & L). exists y. split; [now apply (s_map _ _ _ S)|exact L]. Qed.
Lemma nth_more {A} (l m : list A) i x : nth_error l i = Some x -> nth_error (l ++ m) i = Some x.
Proof. intros E. rewrite nth_error_app1; [exact E|]. apply nth_error_Some. congruence. Qed.
Lemma Forall2_weak {A B} (R R' : A -> B -> Prop) l m : (forall x y, R x y -> R' x y) -> Forall2 R l m -> Forall2 R' l m.
Proof. intros H F. induction F; constructor; auto. Qed.
Lemma denotes_more l m (R R' : nat -> ivalue -> Prop) v x : (forall u y, R u y -> R' u y) -> @denotes func opts l R v x -> denotes opts (l ++ m) R' v x.
Proof.
  intros H. destruct x; cbn [denotes]; try apply nth_more.
  - intros (d' & K & L). exists d'. split; [now apply nth_more|exact L].
  - intros (t & vs & K & M & F). exists t, vs. split; [now apply nth_more|]. split; [exact M|now apply (Forall2_weak R)].
  - intros (t & ks & vs & K & M & F & G). exists t, ks, vs. split; [now apply nth_more|]. split; [exact M|]. split; now apply (Forall2_weak R).
  - intros (vs & K & F). exists vs. split; [now apply nth_more|now apply (Forall2_weak R)].
  - intros (N & r & S & K). split; [exact N|]. exists r. split; [exact S|]. destruct (quantized t) as [[s z|]|]; [|exact K|now apply nth_more].
    destruct K as (u & us & uz & e & K1 & K2 & K3 & K4 & K5). exists u, us, uz, e. split; [now apply nth_more|]. split; [auto|]. split; [auto|]. split; [auto|now apply nth_more].
  - intros (n & vs & K1 & K2 & K3 & F). exists n, vs. split; [exact K1|]. split; [exact K2|]. split; [now apply nth_more|now apply (Forall2_weak R)].
  - intros (u & bs & K & L & B). exists u, bs. split; [now apply nth_more|]. split; [auto|]. destruct bias, bs; auto.
  - tauto.
Qed.
Lemma denotes_low l (R : nat -> ivalue -> Prop) v x : @denotes func opts l R v x -> v < List.length l.
Proof.
  assert (H : forall o, nth_error l v = Some o -> v < List.length l) by (intros o E; apply nth_error_Some; congruence).
  destruct x; cbn [denotes]; eauto; try (intros K; decompose [ex and] K; eauto); [|contradiction]. destruct (quantized t) as [[s z|]|]; [|contradiction|eauto]. match goal with K : exists u, _ |- _ => decompose [ex and] K; eauto end.
Qed.
Lemma known_low p (st : state) v x : inv p st -> known st v x -> v < List.length (ops st).
Proof. intros I (y & K & _). apply (i_built p st I) in K. now apply denotes_low in K. Qed.
Lemma find_some (st : state) x v : find_value st x = Some v -> exists y, In (y, v) (value_map st) /\ same y x = true.
Proof. unfold find_value. destruct (find _ _) as [[y u]|] eqn:F; [|discriminate]. intros E. injection E as <-. apply List.find_some in F as [K L]. exists y. auto. Qed.
Lemma find_none (st : state) x : find_value st x = None -> forall y v, In (y, v) (value_map st) -> same y x = false.
Proof. unfold find_value. destruct (find _ _) as [p|] eqn:F; [discriminate|]. intros _ y v K. now apply (List.find_none _ _ F) in K. Qed.
Lemma found p (st : state) x v : inv p st -> U x -> find_value st x = Some v -> known st v x.
Proof. intros I Ux E. apply find_some in E as (y & K & L). exists y. split; [exact K|]. apply same_stands; auto. now apply (i_key p st I) in K. Qed.

(** An operation that is neither a class nor a function *)
Definition plain (o : op func) : Prop := match o with OClass _ _ _ _ | OFunc _ => False | _ => True end.
Lemma flat_map_last {A B} (f : A -> list B) l x : flat_map f (l ++ [x]) = flat_map f l ++ f x.
Proof. induction l as [|y l IH]; [cbn; now rewrite app_nil_r|]. cbn. now rewrite IH, app_assoc. Qed.
Lemma emit_inv p o st : inv p st -> plain o -> Forall (fun v => v < List.length (ops st)) (operands o) -> inv p (with_ops st (ops st ++ [o])).
Proof.
  intros I PL OP. destruct I as [K1 K2 K3 K4 K5 K6 K7 K8 K9 K10 K11 K12 K13 K14]. constructor; cbn [ops value_map seen_storages class_types compilation_unit with_ops]; auto.
  - intros x v K. apply (denotes_more _ _ (known st)); [auto|now apply K2].
  - intros i o' E. destruct (Nat.lt_ge_cases i (List.length (ops st))) as [L|L]; [rewrite nth_error_app1 in E by exact L; now apply K5|]. rewrite nth_error_app2 in E by exact L.
    destruct (i - List.length (ops st)) as [|k] eqn:D; [|destruct k; discriminate]. cbn in E. injection E as <-. assert (i = List.length (ops st)) as -> by lia. exact OP.
  - unfold class_ids. rewrite flat_map_last. destruct o; cbn; try contradiction; rewrite app_nil_r; exact K10.
  - intros id n a m K. apply in_app_or in K as [K|[->|[]]]; [now apply K12|contradiction].
  - unfold functions_of. rewrite flat_map_last. destruct o; cbn; try contradiction; rewrite app_nil_r; exact K13.
Qed.
Lemma emit_step P o st : step P st (with_ops st (ops st ++ [o])).
Proof. split; cbn; auto; [eauto|apply incl_refl]. Qed.
Lemma names_inv p names root st : inv p st -> inv p (with_names names root st).
Proof. intros [K1 K2 K3 K4 K5 K6 K7 K8 K9 K10 K11 K12 K13 K14]. constructor; auto. Qed.
Lemma names_step P names root st : step P st (with_names names root st).
Proof. split; cbn; auto; [exists []; now rewrite app_nil_r|apply incl_refl]. Qed.

(** A new entry *)
Lemma remember_step x v st : step (eq x) st (remember x v st).
Proof. split; cbn; auto; [exists []; now rewrite app_nil_r| |apply incl_refl]. intros y u [E|K]; [injection E as <- <-; auto|auto]. Qed.
Lemma remember_inv p st x v : inv p st -> U x -> (forall y u, In (y, u) (value_map st) -> same y x = false) -> (forall y u, In (y, u) (value_map st) -> u <> v) -> denotes opts (ops st) (known st) v x ->
  (forall i t, x = VTensor i t -> In (storage t) (seen_storages st) /\ p = Some (storage t) /\ forall j t' u, In (VTensor j t', u) (value_map st) -> storage t' <> storage t) ->
  (forall i c cu l, x = VModule i c cu l -> compilation_unit st = Some cu /\ In (c_id c) (class_types st)) ->
  inv (match x with VTensor _ _ => None | _ => p end) (remember x v st).
Proof.
  intros I Ux NS NV DN HT HM. pose proof I as [K1 K2 K3 K4 K5 K6 K7 K8 K9 K10 K11 K12 K13 K14]. assert (KN : forall u y, known st u y -> known (remember x v st) u y) by (intros u y (z & A & B); exists z; split; [now right|exact B]).
  constructor; cbn [ops value_map seen_storages class_types compilation_unit remember]; auto.
  - intros y u [E|K]; [injection E as <- <-; exact Ux|eauto].
  - intros y u [E|K].
    + injection E as <- <-. rewrite <- (app_nil_r (ops st)). now apply (denotes_more _ _ (known st)).
    + rewrite <- (app_nil_r (ops st)). apply (denotes_more _ _ (known st)); auto.
  - cbn. constructor; [|exact K3]. intros J. apply in_map_iff in J as ([y u] & E & J). cbn in E. subst u. now apply (NV y v J).
  - intros y u z w [E|A] [E'|B] S; try (injection E as <- <-); try (injection E' as <- <-); auto.
    + rewrite same_sym in S. rewrite (NS z w B) in S. discriminate.
    + rewrite (NS y u A) in S. discriminate.
    + eauto.
  - intros i t u [E|K]; [injection E as -> <-; now apply (HT i t)|eauto].
  - intros s K. apply K7 in K as [K|(i & t & u & A & B)]; [|right; exists i, t, u; split; [now right|exact B]]. destruct x; auto. right. destruct (HT id t eq_refl) as (_ & E & _). exists id, t, v. split; [now left|congruence].
  - intros i t u i' t' u' [E|A] [E'|B] S; try (injection E as E _); try (injection E' as E' _).
    + rewrite E in E'. now injection E' as -> _.
    + exfalso. destruct (HT i t E) as (_ & _ & X). exact (X i' t' u' B (eq_sym S)).
    + exfalso. destruct (HT i' t' E') as (_ & _ & X). exact (X i t u A S).
    + eauto.
  - intros i c cu l u [E|K]; [injection E as -> <-; now apply (HM i c cu l)|eauto].
Qed.
(** Numbers *)
Lemma number_step p x o st v st' : inv p st -> U x -> ((exists d, x = VDouble d /\ o = OFloat d) \/ (exists z, x = VInt z /\ o = OInt z)) -> import_number x o st = (v, st') ->
  inv p st' /\ step (eq x) st st' /\ known st' v x /\ seen_storages st' = seen_storages st /\ attribute_names st' = attribute_names st.
Proof.
  intros I Ux N E. unfold import_number in E. destruct (find_value st x) as [u|] eqn:F.
  - injection E as <- <-. split; [exact I|]. split; [apply step_refl|]. split; [now apply (found p)|auto].
  - cbn [emit] in E. injection E as <- <-. assert (PL : plain o) by (destruct N as [(d & -> & ->)|(z & -> & ->)]; exact Logic.I). assert (OP : operands o = []) by (destruct N as [(d & -> & ->)|(z & -> & ->)]; reflexivity).
    assert (I1 : inv p (with_ops st (ops st ++ [o]))) by (apply emit_inv; auto; rewrite OP; constructor).
    assert (T : match x with VTensor _ _ => None | _ => p end = p) by (destruct N as [(d & -> & _)|(z & -> & _)]; reflexivity).
    split; [|split; [|split; [|split; reflexivity]]].
    + rewrite <- T. apply remember_inv; auto; cbn [ops value_map with_ops].
      * intros y u K. now apply (find_none st x F y u).
      * intros y u K ->. apply (i_built p st I) in K. apply denotes_low in K. lia.
      * assert (NE : nth_error (ops st ++ [o]) (List.length (ops st)) = Some o) by (rewrite nth_error_app2 by lia; now rewrite Nat.sub_diag).
        destruct N as [(d & -> & ->)|(z & -> & ->)]; cbn [denotes]; [exists d; split; [exact NE|now left]|exact NE].
      * intros i t ->. destruct N as [(d & X & _)|(z & X & _)]; discriminate.
      * intros i c cu l ->. destruct N as [(d & X & _)|(z & X & _)]; discriminate.
    + eapply step_trans; [apply emit_step|apply remember_step].
    + exists x. split; [now left|now left].
Qed.
(** Functions and classes *)
Lemma functions_ok l : forall (st st' : state), import_functions import_function l st = Ok st' <-> exists gs, map Some gs = map import_function l /\ st' = with_ops st (ops st ++ map OFunc gs).
Proof.
  induction l as [|f l IH]; intros st st'; cbn [import_functions map].
  - split.
    + intros E. injection E as <-. exists []. split; [reflexivity|]. cbn. rewrite app_nil_r. now destruct st.
    + intros ([|g gs] & E & ->); [|discriminate]. cbn. rewrite app_nil_r. now destruct st.
  - destruct (import_function f) as [g|]; cbn [of_option rbind].
    + rewrite IH. cbn [emit snd ops with_ops]. split.
      * intros (gs & E & ->). exists (g :: gs). cbn. rewrite E, <- app_assoc. split; reflexivity.
      * intros ([|g' gs] & E & ->); [discriminate|]. cbn in E. injection E as -> E. exists gs. split; [exact E|]. cbn. rewrite <- app_assoc. reflexivity.
    + split; [discriminate|]. intros ([|g' gs] & E & _); discriminate.
Qed.
Lemma functions_only gs : class_ids (map (@OFunc func) gs) = [] /\ functions_of (map OFunc gs) = gs /\ Forall (fun o => operands o = []) (map (@OFunc func) gs) /\ forall id n a m, ~ In (OClass id n a m) (map (@OFunc func) gs).
Proof.
  induction gs as [|g gs (A & B & C & D)]; cbn; [split; [|split; [|split; [constructor|]]]; auto|]. split; [exact A|]. split; [now f_equal|]. split; [now constructor|]. intros id n a m [E|K]; [discriminate|now apply D in K].
Qed.
Lemma unit_step cu (st st' : state) : inv None st -> (exists i c l, U (VModule i c cu l)) -> import_compilation_unit import_function get_functions cu st = Ok st' -> inv None st' /\ step (fun _ => False) st st' /\ compilation_unit st' = Some cu /\ attribute_names st' = attribute_names st.
Proof.
  intros I HM E. unfold import_compilation_unit in E. destruct (compilation_unit st) as [cu'|] eqn:C.
  - destruct (cu' =? cu) eqn:Q; [|discriminate]. injection E as <-. apply Nat.eqb_eq in Q. subst cu'. split; [exact I|]. split; [apply step_refl|auto].
  - apply functions_ok in E as (gs & G & ->). cbn [ops with_ops compilation_unit attribute_names]. pose proof (functions_only gs) as (A & B & OP & D). destruct I as [K1 K2 K3 K4 K5 K6 K7 K8 K9 K10 K11 K12 K13 K14]. rewrite C in K13. split; [|split; [|auto]].
    + constructor; cbn [ops value_map seen_storages class_types compilation_unit with_ops]; auto.
      * intros x v K. apply (denotes_more _ _ (known st)); [auto|now apply K2].
      * intros i o' E. destruct (Nat.lt_ge_cases i (List.length (ops st))) as [L|L]; [rewrite nth_error_app1 in E by exact L; now apply K5|]. rewrite nth_error_app2 in E by exact L.
        apply nth_error_In in E. rewrite Forall_forall in OP. rewrite (OP o' E). constructor.
      * intros i c cu' l v K. apply K9 in K as [K _]. congruence.
      * unfold class_ids in *. rewrite flat_map_app, A, app_nil_r. exact K10.
      * intros id n a m K. apply in_app_or in K as [K|K]; [now apply K12|now apply D in K].
      * unfold functions_of in *. rewrite flat_map_app, K13, B. exact G.
      * intros cu' E. injection E as <-. exact HM.
    + split; cbn; auto; [eauto|congruence|apply incl_refl].
Qed.
Lemma attributes_ok l : forall e a, import_attributes opts l e = Some a <-> List.length l <= List.length e /\ Forall2 (fun x y => fst (fst x) = fst (fst y) /\ means default_options opts (snd (fst x)) (snd (fst y)) /\ snd y = negb (snd x)) (combine l e) a.
Proof.
  induction l as [|[n j] l IH]; intros e a; cbn [import_attributes combine List.length].
  - split; [intros E; injection E as <-; split; [lia|constructor]|intros [_ F]; inversion F; reflexivity].
  - destruct e as [|b e]; [split; [discriminate|cbn; lia]|]. cbn [List.length combine]. destruct (from_torch opts j) as [t| | |] eqn:T.
    + unfold obind. apply C119_types in T. destruct (import_attributes opts l e) as [r|] eqn:R.
      * apply IH in R as [L F]. split.
        -- intros E. injection E as <-. split; [lia|]. constructor; auto.
        -- intros [_ G]. inversion G as [|x y x' y' (X1 & X2 & X3) G']; subst. destruct y as [[n' t'] b']. cbn in *. subst. f_equal. f_equal; [f_equal; f_equal|].
           ++ apply C119_types in T, X2. congruence.
           ++ assert (R : import_attributes opts l e = Some r) by (apply IH; split; assumption). assert (R' : import_attributes opts l e = Some y') by (apply IH; split; [lia|assumption]). congruence.
      * split; [discriminate|]. intros [L G]. inversion G as [|x y x' y' X G']; subst. assert (R' : import_attributes opts l e = Some y') by (apply IH; split; [lia|assumption]). congruence.
    + split; [discriminate|]. intros [_ G]. inversion G as [|x y x' y' (X1 & X2 & X3) G']; subst. apply C119_types in X2. cbn in X2. congruence.
    + split; [discriminate|]. intros [_ G]. inversion G as [|x y x' y' (X1 & X2 & X3) G']; subst. apply C119_types in X2. cbn in X2. congruence.
    + split; [discriminate|]. intros [_ G]. inversion G as [|x y x' y' (X1 & X2 & X3) G']; subst. apply C119_types in X2. cbn in X2. congruence.
Qed.
Lemma methods_ok l : forall e m, import_methods l e = Some m <-> List.length l <= List.length e /\ Forall2 (fun x y => fst x = fst y /\ snd y = negb (snd x)) (combine l e) m.
Proof.
  induction l as [|[n j] l IH]; intros e a; cbn [import_methods combine List.length].
  - split; [intros E; injection E as <-; split; [lia|constructor]|intros [_ F]; inversion F; reflexivity].
  - destruct e as [|b e]; [split; [discriminate|cbn; lia]|]. cbn [List.length combine]. unfold obind. destruct (import_methods l e) as [r|] eqn:R.
    + apply IH in R as [L F]. split.
      * intros E. injection E as <-. split; [lia|]. constructor; auto.
      * intros [_ G]. inversion G as [|x y x' y' (X1 & X2) G']; subst. destruct y as [[n' t'] b']. cbn in *. injection X1 as <- <-. subst. f_equal. f_equal.
        assert (R : import_methods l e = Some r) by (apply IH; split; assumption). assert (R' : import_methods l e = Some y') by (apply IH; split; [lia|assumption]). congruence.
    + split; [discriminate|]. intros [L G]. inversion G as [|x y x' y' X G']; subst. assert (R' : import_methods l e = Some y') by (apply IH; split; [lia|assumption]). congruence.
Qed.
Lemma class_step c (st st' : state) : inv None st -> (exists i cu l, U (VModule i c cu l)) -> import_class_type opts exported c st = Ok st' ->
  inv None st' /\ step (fun _ => False) st st' /\ In (c_id c) (class_types st') /\ compilation_unit st' = compilation_unit st /\ attribute_names st' = attribute_names st.
Proof.
  intros I M E. unfold import_class_type in E. destruct (existsb (Nat.eqb (c_id c)) (class_types st)) eqn:X.
  - injection E as <-. apply existsb_exists in X as (j & J & Q). apply Nat.eqb_eq in Q. subst j. split; [exact I|]. split; [apply step_refl|auto].
  - destruct (c_name c) as [n|] eqn:N; [|discriminate]. cbn [of_option rbind] in E. destruct (import_attributes opts (c_attributes c) (fst (exported c))) as [a|] eqn:A; [|discriminate]. cbn [of_option rbind] in E.
    destruct (import_methods (c_methods c) (snd (exported c))) as [m|] eqn:D; [|discriminate]. cbn [of_option rbind] in E. injection E as <-. cbn [class_types compilation_unit attribute_names].
    apply attributes_ok in A. apply methods_ok in D.
    destruct I as [K1 K2 K3 K4 K5 K6 K7 K8 K9 K10 K11 K12 K13 K14]. split; [|split; [|split; [now left|auto]]].
    + constructor; cbn [ops value_map seen_storages class_types compilation_unit]; auto.
      * intros x v K. apply (denotes_more _ _ (known st)); [auto|now apply K2].
      * intros i o' E. destruct (Nat.lt_ge_cases i (List.length (ops st))) as [L|L]; [rewrite nth_error_app1 in E by exact L; now apply K5|]. rewrite nth_error_app2 in E by exact L.
        destruct (i - List.length (ops st)) as [|k]; [|destruct k; discriminate]. cbn in E. injection E as <-. constructor.
      * intros i c' cu' l v K. apply K9 in K as [K K']. split; [exact K|now right].
      * unfold class_ids in *. rewrite flat_map_last, K10. reflexivity.
      * constructor; [|exact K11]. intros K. assert (existsb (Nat.eqb (c_id c)) (class_types st) = true); [|congruence]. apply existsb_exists. exists (c_id c). split; [exact K|apply Nat.eqb_refl].
      * intros id n' a' m' K. apply in_app_or in K as [K|[K|[]]]; [now apply K12|]. injection K as <- <- <- <-. exists c. split; [exact M|]. split; [reflexivity|]. split; [exact N|]. split; assumption.
      * unfold functions_of in *. rewrite flat_map_last. cbn. rewrite app_nil_r. exact K13.
    + split; cbn; auto; [eauto|intros y K; now right].
Qed.
(** Tensors *)
Lemma storage_inv s (st : state) : inv None st -> inv (Some s) (with_storage s st).
Proof.
  intros [K1 K2 K3 K4 K5 K6 K7 K8 K9 K10 K11 K12 K13 K14]. constructor; auto; cbn [seen_storages value_map with_storage].
  - intros i t v K. right. eauto.
  - intros s' [->|K]; [auto|]. apply K7 in K as [K|K]; [discriminate|auto].
Qed.
Lemma storage_step P s (st : state) : step P st (with_storage s st).
Proof. split; cbn; auto; [exists []; now rewrite app_nil_r|apply incl_refl]. Qed.
Lemma nth_last {A} (l : list A) x : nth_error (l ++ [x]) (List.length l) = Some x.
Proof. rewrite nth_error_app2 by lia. now rewrite Nat.sub_diag. Qed.
Lemma raw_is s t c : elements_attr s = Some (t, c) -> element_is (Some s) (option_map TypesModel.Builtin (scalar_raw s)).
Proof. intros E. destruct (scalar_raw s) as [r|] eqn:R; [now apply C119_scalars in R|]. destruct s; discriminate. Qed.
Lemma tensor_step p i t (st st' : state) v : inv p st -> U (VTensor i t) -> import_tensor opts t st = Ok (v, st') ->
  inv p st' /\ step (fun y => In y (children (VTensor i t))) st st' /\ denotes opts (ops st') (known st') v (VTensor i t) /\ (forall y u, In (y, u) (value_map st') -> u <> v) /\ seen_storages st' = seen_storages st /\ attribute_names st' = attribute_names st.
Proof.
  intros I Ut E. unfold import_tensor in E. destruct (elements_attr (scalar t)) as [[e c]|] eqn:EL; [|discriminate]. cbn [of_option rbind fst emit] in E. pose proof EL as LT. apply C119_literals in LT as (NS & r & SR & _ & ->).
  set (lit := OLiteral (assume_value_semantics opts) (dims t) (literal_type r) (contents t)) in *. set (st1 := with_ops st (ops st ++ [lit])) in *.
  assert (I1 : inv p st1) by (apply emit_inv; [exact I|exact Logic.I|constructor]). assert (S1 : forall P, step P st st1) by (intros P; apply emit_step). cbn [denotes children].
  destruct (quantized t) as [[s z|]|] eqn:Q; [|discriminate|].
  - assert (Us : U (VDouble s) /\ U (VInt z)) by (split; apply (closed (VTensor i t)); auto; cbn; rewrite Q; cbn; auto). destruct Us as [Us Uz].
    destruct (import_number (VDouble s) (OFloat s) st1) as [us st2] eqn:E2. destruct (number_step p _ _ _ _ _ I1 Us ltac:(left; eauto) E2) as (I2 & S2 & N2 & G2 & A2).
    destruct (import_number (VInt z) (OInt z) st2) as [uz st3] eqn:E3. destruct (number_step p _ _ _ _ _ I2 Uz ltac:(right; eauto) E3) as (I3 & S3 & N3 & G3 & A3).
    cbn [emit] in E. injection E as <- <-.
    assert (L1 : nth_error (ops st3) (List.length (ops st)) = Some lit).
    { destruct (s_ops _ _ _ S3) as [m3 M3]. destruct (s_ops _ _ _ S2) as [m2 M2]. rewrite M3, M2. apply nth_more, nth_more. apply nth_last. }
    split; [|split; [|split; [|split; [|split]]]].
    + apply emit_inv; [exact I3|exact Logic.I|]. cbn [operands]. repeat apply Forall_cons; [apply nth_error_Some; congruence|apply (known_low p st3 us (VDouble s) I3); now apply (step_known _ st2 st3 us _ S3)|exact (known_low p st3 uz (VInt z) I3 N3)|constructor].
    + eapply step_trans; [apply S1|]. eapply step_trans; [eapply step_weak; [|exact S2]; cbn; auto|]. eapply step_trans; [eapply step_weak; [|exact S3]; cbn; auto|apply emit_step].
    + split; [exact NS|]. exists r. split; [exact SR|]. exists (List.length (ops st)), us, uz, (option_map TypesModel.Builtin (scalar_raw (scalar t))). cbn [ops with_ops]. split; [now apply nth_more|].
      split; [exact (step_known _ st2 st3 us _ S3 N2)|]. split; [exact N3|]. split; [now apply (raw_is _ (literal_type r) c)|]. apply nth_last.
    + cbn [value_map with_ops]. intros y u K ->. apply (i_built p st3 I3) in K. apply denotes_low in K. lia.
    + cbn. rewrite G3, G2. reflexivity.
    + cbn. rewrite A3, A2. reflexivity.
  - injection E as <- <-. split; [exact I1|]. split; [apply S1|]. split; [split; [exact NS|]; exists r; split; [exact SR|]; apply nth_last|]. split; [|split; reflexivity].
    intros y u K ->. cbn in K. apply (i_built p st I) in K. apply denotes_low in K. lia.
Qed.

(** ** The import of an object *)
Definition imports (x : ivalue) : Prop := U x -> forall (st st' : state) v, inv None st -> import_value x st = Ok (v, st') ->
  inv None st' /\ step (part x) st st' /\ known st' v x /\ attribute_names st' = attribute_names st.
Lemma list_step l : Forall imports l -> Forall U l -> forall (st st' : state) vs, inv None st -> import_list import_value l st = Ok (vs, st') ->
  inv None st' /\ step (fun y => exists x, In x l /\ part x y) st st' /\ Forall2 (known st') vs l /\ attribute_names st' = attribute_names st.
Proof.
  induction l as [|x l IH]; intros HF HU st st' vs I E; cbn [import_list] in E.
  - injection E as <- <-. split; [exact I|]. split; [apply step_refl|]. split; [constructor|reflexivity].
  - inversion HF as [|? ? Hx HF']; subst. inversion HU as [|? ? Ux HU']; subst. destruct (import_value x st) as [[v st1]|] eqn:E1; [|discriminate]. cbn [rbind] in E. destruct (Hx Ux st st1 v I E1) as (I1 & S1 & N1 & A1).
    destruct (import_list import_value l st1) as [[vs' st2]|] eqn:E2; [|discriminate]. cbn [rbind] in E. injection E as <- <-. destruct (IH HF' HU' st1 st2 vs' I1 E2) as (I2 & S2 & N2 & A2).
    split; [exact I2|]. split; [|split; [constructor; [exact (step_known _ _ _ _ _ S2 N1)|exact N2]|congruence]].
    eapply step_trans; [eapply step_weak; [|exact S1]; intros y K; exists x; split; [now left|exact K]|eapply step_weak; [|exact S2]; intros y (z & K & L); exists z; split; [now right|exact L]].
Qed.
Lemma pairs_step l : Forall (fun p => imports (fst p) /\ imports (snd p)) l -> Forall (fun p => U (fst p) /\ U (snd p)) l -> forall (st st' : state) ks vs, inv None st -> import_pairs import_value l st = Ok (ks, vs, st') ->
  inv None st' /\ step (fun y => exists x, In x (flat_map (fun p => [fst p; snd p]) l) /\ part x y) st st' /\ Forall2 (known st') ks (map fst l) /\ Forall2 (known st') vs (map snd l) /\ attribute_names st' = attribute_names st.
Proof.
  induction l as [|[k x] l IH]; intros HF HU st st' ks vs I E; cbn [import_pairs] in E.
  - injection E as <- <- <-. split; [exact I|]. split; [apply step_refl|]. split; [constructor|]. split; [constructor|reflexivity].
  - inversion HF as [|? ? [Hk Hx] HF']; subst. inversion HU as [|? ? [Uk Ux] HU']; subst. cbn in Hk, Hx, Uk, Ux. destruct (import_value k st) as [[kv st0]|] eqn:E0; [|discriminate]. cbn [rbind] in E. destruct (Hk Uk st st0 kv I E0) as (I0 & S0 & N0 & A0).
    destruct (import_value x st0) as [[v st1]|] eqn:E1; [|discriminate]. cbn [rbind] in E. destruct (Hx Ux st0 st1 v I0 E1) as (I1 & S1 & N1 & A1).
    destruct (import_pairs import_value l st1) as [[[ks' vs'] st2]|] eqn:E2; [|discriminate]. cbn [rbind] in E. injection E as <- <- <-. destruct (IH HF' HU' st1 st2 ks' vs' I1 E2) as (I2 & S2 & N2 & M2 & A2).
    split; [exact I2|]. split; [|split; [constructor; [exact (step_known _ _ _ _ _ S2 (step_known _ _ _ _ _ S1 N0))|exact N2]|split; [constructor; [exact (step_known _ _ _ _ _ S2 N1)|exact M2]|congruence]]]. cbn [flat_map fst snd app].
    eapply step_trans; [eapply step_weak; [|exact S0]; intros y K; exists k; split; [now left|exact K]|]. eapply step_trans; [eapply step_weak; [|exact S1]; intros y K; exists x; split; [right; now left|exact K]|eapply step_weak; [|exact S2]; intros y (z & K & L); exists z; split; [right; now right|exact L]].
Qed.
Lemma slots_step l : Forall imports l -> Forall U l -> forall names (st st' : state) out, inv None st -> import_slots import_value names l st = Ok (out, st') ->
  inv None st' /\ step (fun y => exists x, In x l /\ part x y) st st' /\ map fst out = names /\ Forall2 (known st') (map snd out) l /\ attribute_names st' = attribute_names st.
Proof.
  induction l as [|x l IH]; intros HF HU [|n names] st st' out I E; cbn [import_slots] in E; try discriminate.
  - injection E as <- <-. split; [exact I|]. split; [apply step_refl|]. split; [reflexivity|]. split; [constructor|reflexivity].
  - inversion HF as [|? ? Hx HF']; subst. inversion HU as [|? ? Ux HU']; subst. destruct (import_value x _) as [[v st1]|] eqn:E1; [|discriminate]. cbn [rbind] in E. apply Hx in E1 as (I1 & S1 & N1 & A1); [|exact Ux|now apply names_inv].
    destruct (import_slots import_value names l _) as [[vs' st2]|] eqn:E2; [|discriminate]. cbn [rbind] in E. injection E as <- <-. apply (IH HF' HU') in E2 as (I2 & S2 & N2 & F2 & A2); [|now apply names_inv].
    cbn [attribute_names with_names] in A1, A2. rewrite A1, removelast_last in A2.
    split; [exact I2|]. split; [|split; [cbn; now f_equal|split; [|exact A2]]].
    + eapply step_trans; [apply names_step|]. eapply step_trans; [eapply step_weak; [|exact S1]; intros y K; exists x; split; [now left|exact K]|]. eapply step_trans; [apply names_step|]. eapply step_weak; [|exact S2]. intros y (z & K & L). exists z. split; [now right|exact L].
    + cbn. constructor; [|exact F2]. refine (step_known _ _ _ _ _ S2 _). exact (step_known _ _ _ _ _ (names_step (part x) _ _ st1) N1).
Qed.
(** An object that is not known: an operation for it, after those for the objects inside *)
Lemma finish x (st st1 : state) o : U x -> inv None st -> find_value st x = None -> inv None st1 -> step (fun y => exists c, In c (children x) /\ part c y) st st1 ->
  (forall i t, x <> VTensor i t) -> plain o -> (forall w, In w (operands o) -> exists y, known st1 w y) -> denotes opts (ops st1 ++ [o]) (known st1) (List.length (ops st1)) x ->
  (forall i c cu l, x = VModule i c cu l -> compilation_unit st1 = Some cu /\ In (c_id c) (class_types st1)) -> attribute_names st1 = attribute_names st ->
  let st' := remember x (List.length (ops st1)) (with_ops st1 (ops st1 ++ [o])) in inv None st' /\ step (part x) st st' /\ known st' (List.length (ops st1)) x /\ attribute_names st' = attribute_names st.
Proof.
  intros Ux I F I1 S1 NT PL OP DN HM AN st'.
  assert (I2 : inv None (with_ops st1 (ops st1 ++ [o]))).
  { apply emit_inv; auto. apply Forall_forall. intros w K. apply OP in K as [y K]. now apply (known_low None st1 w y). }
  assert (T : match x with VTensor _ _ => None | _ => None end = @None nat) by (now destruct x).
  split; [|split; [|split; [|exact AN]]].
  - unfold st'. rewrite <- T. apply remember_inv; auto; cbn [value_map with_ops ops].
    + intros y u K. destruct (same y x) eqn:S; [|reflexivity]. exfalso. pose proof (i_key None st1 I1 y u K) as Uy. apply (s_new _ _ _ S1) in K as [K|(c & C & P)]; [rewrite (find_none st x F y u K) in S; discriminate|].
      apply same_stands in S; auto. apply part_size in P. apply child_size in C. destruct S as [->|(a & b & -> & -> & _)]; [lia|]. cbn in C, P. lia.
    + intros y u K ->. apply (i_built None st1 I1) in K. apply denotes_low in K. lia.
    + intros i t ->. now contradiction (NT i t).
  - eapply step_trans; [eapply step_weak; [|exact S1]; intros y (c & C & P); now apply (part_child x c y)|]. eapply step_trans; [apply emit_step|eapply step_weak; [|apply remember_step]; intros y <-; constructor].
  - exists x. split; [now left|now left].
Qed.
Lemma combine_split {A B} (l : list (A * B)) : combine (map fst l) (map snd l) = l.
Proof. induction l as [|[a b] l IH]; [reflexivity|]. cbn. now f_equal. Qed.
Lemma In_known (R : nat -> ivalue -> Prop) vs l w : Forall2 R vs l -> In w vs -> exists y, R w y.
Proof. induction 1 as [|a b vs l K _ IH]; [intros []|]. intros [<-|J]; eauto. Qed.
Lemma leaf x o (st : state) : U x -> inv None st -> find_value st x = None -> (forall i t, x <> VTensor i t) -> (forall i c cu l, x <> VModule i c cu l) -> plain o -> operands o = [] -> denotes opts (ops st ++ [o]) (known st) (List.length (ops st)) x ->
  let st' := remember x (List.length (ops st)) (with_ops st (ops st ++ [o])) in inv None st' /\ step (part x) st st' /\ known st' (List.length (ops st)) x /\ attribute_names st' = attribute_names st.
Proof.
  intros Ux I F NT NM PL OP DN. apply finish; auto; [apply step_refl|rewrite OP; intros w []|]. intros i c cu l ->. now contradiction (NM i c cu l).
Qed.
Lemma all_imports : forall x, imports x.
Proof.
  assert (FOUND : forall x st st' v, U x -> inv None st -> forall u, find_value st x = Some u -> Ok (u, st) = Ok (v, st') -> inv None st' /\ step (part x) st st' /\ known st' v x /\ attribute_names st' = attribute_names st).
  { intros x st st' v Ux I u F E. injection E as <- <-. split; [exact I|]. split; [apply step_refl|]. split; [now apply (found None)|reflexivity]. }
  assert (KIDS : forall x, U x -> Forall U (children x)) by (intros x Ux; apply Forall_forall; intros y K; now apply (closed x)).
  induction x as [b|z|d|s| |i e l IH|i k e l IH|i l IH|i t|i c cu l IH|i w b IHw IHb|i] using ivalue_tree; intros Ux st st' v I E; cbn [IValueModel.import_value] in E;
    match type of E with context [find_value st ?y] => destruct (find_value st y) as [u|] eqn:F; [now apply (FOUND y st st' v Ux I u F)|] end; cbn [check_storage rbind emit] in E; specialize (KIDS _ Ux); cbn [children] in KIDS.
  - injection E as <- <-. apply leaf; auto; try discriminate; [exact Logic.I|]. apply nth_last.
  - injection E as <- <-. apply leaf; auto; try discriminate; [exact Logic.I|]. apply nth_last.
  - injection E as <- <-. apply leaf; auto; try discriminate; [exact Logic.I|]. exists d. split; [apply nth_last|now left].
  - injection E as <- <-. apply leaf; auto; try discriminate; [exact Logic.I|]. apply nth_last.
  - injection E as <- <-. apply leaf; auto; try discriminate; [exact Logic.I|]. apply nth_last.
  - destruct (import_list _ l st) as [[vs st1]|] eqn:E1; [|discriminate]. cbn [rbind] in E. destruct (list_step l IH KIDS st st1 vs I E1) as (I1 & S1 & N1 & A1). destruct (from_torch opts e) as [t| | |] eqn:T; try discriminate. cbn [rbind emit] in E. injection E as <- <-.
    apply finish; auto; try discriminate; [exact Logic.I|intros w K; now apply (In_known _ vs l)|]. exists t, vs. split; [apply nth_last|]. split; [now apply C119_types|exact N1].
  - assert (KP : Forall (fun p => U (fst p) /\ U (snd p)) l). { apply Forall_forall. intros [a b] K. rewrite Forall_forall in KIDS. split; apply KIDS; apply in_flat_map; exists (a, b); cbn; auto. }
    destruct (import_pairs _ l st) as [[[ks vs] st1]|] eqn:E1; [|discriminate]. cbn [rbind] in E. destruct (pairs_step l IH KP st st1 ks vs I E1) as (I1 & S1 & N1 & M1 & A1). destruct (from_torch opts (JDict k e)) as [t| | |] eqn:T; try discriminate. cbn [rbind emit] in E. injection E as <- <-.
    apply finish; auto; try discriminate; [exact Logic.I| |].
    + intros w K. cbn in K. apply in_app_or in K as [K|K]; [now apply (In_known _ ks (map fst l))|now apply (In_known _ vs (map snd l))].
    + exists t, ks, vs. split; [apply nth_last|]. split; [now apply C119_types|]. split; assumption.
  - destruct (import_list _ l st) as [[vs st1]|] eqn:E1; [|discriminate]. cbn [rbind emit] in E. destruct (list_step l IH KIDS st st1 vs I E1) as (I1 & S1 & N1 & A1). injection E as <- <-.
    apply finish; auto; try discriminate; [exact Logic.I|intros w K; now apply (In_known _ vs l)|]. exists vs. split; [apply nth_last|exact N1].
  - destruct (existsb (Nat.eqb (storage t)) (seen_storages st)) eqn:SE; [discriminate|]. cbn [rbind] in E. destruct (import_tensor opts t (with_storage (storage t) st)) as [[u st1]|] eqn:E1; [|discriminate]. cbn [rbind] in E. injection E as <- <-.
    destruct (tensor_step (Some (storage t)) i t _ _ _ (storage_inv (storage t) st I) Ux E1) as (I1 & S1 & DN & NV & SS & A1).
    assert (NK : forall y u', In (y, u') (value_map st1) -> In (y, u') (value_map st) \/ In y (children (VTensor i t))) by (intros y u' K; apply (s_new _ _ _ S1) in K; exact K).
    split; [|split; [|split; [|exact A1]]].
    + apply (remember_inv (Some (storage t)) st1 (VTensor i t) u); auto.
      * intros y u' K. apply NK in K as [K|K]; [now apply (find_none st _ F y u')|]. cbn in K. destruct (quantized t) as [[s z|]|]; [|destruct K|destruct K]. destruct K as [<-|[<-|[]]]; reflexivity.
      * intros i' t' E'. injection E' as <- <-. split; [rewrite SS; now left|]. split; [reflexivity|]. intros j t' u' K Q. apply NK in K as [K|K].
        -- apply (i_seen None st I) in K. rewrite Q in K. assert (existsb (Nat.eqb (storage t)) (seen_storages st) = true); [|congruence]. apply existsb_exists. exists (storage t). split; [exact K|apply Nat.eqb_refl].
        -- cbn in K. destruct (quantized t) as [[s z|]|]; [|destruct K|destruct K]. destruct K as [K|[K|[]]]; discriminate.
      * intros; discriminate.
    + eapply step_trans; [apply storage_step|]. eapply step_trans; [eapply step_weak; [|exact S1]; intros y K; apply (part_child _ y y K); constructor|eapply step_weak; [|apply remember_step]; intros y <-; constructor].
    + exists (VTensor i t). split; [now left|now left].
  - destruct (c_name c) as [n|] eqn:N; [|discriminate]. cbn [of_option rbind] in E. destruct (import_compilation_unit import_function get_functions cu st) as [st1|] eqn:E1; [|discriminate]. cbn [rbind] in E. destruct (unit_step cu st st1 I ltac:(eauto) E1) as (I1 & S1 & C1 & A1).
    destruct (import_class_type opts exported c st1) as [st2|] eqn:E2; [|discriminate]. cbn [rbind] in E. destruct (class_step c st1 st2 I1 ltac:(eauto) E2) as (I2 & S2 & T2 & C2 & A2).
    match type of E with context [with_names (attribute_names st2) ?r st2] => set (root := r) in * end.
    destruct (import_slots _ (map fst (c_attributes c)) l _) as [[out st3]|] eqn:E3; [|discriminate]. cbn [rbind emit] in E. destruct (slots_step l IH KIDS _ _ _ _ (names_inv None _ _ st2 I2) E3) as (I3 & S3 & N3 & F3 & A3). injection E as <- <-.
    set (st4 := with_names (attribute_names st3) None st3). change (ops st3) with (ops st4).
    assert (S4 : step (fun y => exists c0, In c0 (children (VModule i c cu l)) /\ part c0 y) st st4).
    { eapply step_trans; [eapply step_weak; [|exact S1]; intros y []|]. eapply step_trans; [eapply step_weak; [|exact S2]; intros y []|]. eapply step_trans; [apply names_step|]. eapply step_trans; [exact S3|apply names_step]. }
    apply (finish (VModule i c cu l) st st4 (OModule n out)); auto; try discriminate; [now apply names_inv|exact Logic.I| | | |].
    + intros w K. cbn in K. exact (In_known _ _ _ _ F3 K).
    + cbn [denotes]. exists n, (map snd out). split; [exact N|]. split; [rewrite map_length, <- (map_length fst out), N3, map_length; reflexivity|]. split; [rewrite <- N3, combine_split; apply nth_last|exact F3].
    + intros i' c' cu' l' E'. injection E' as <- <- <- <-. split; [apply (s_unit _ _ _ S3); cbn; congruence|apply (s_classes _ _ _ S3); exact T2].
    + cbn in *. congruence.
  - destruct (IValueModel.import_value opts import_function get_functions exported w st) as [[vw st1]|] eqn:E1; [|discriminate]. cbn [rbind] in E. inversion KIDS as [|? ? Uw KB]; subst. destruct (IHw Uw st st1 vw I E1) as (I1 & S1 & N1 & A1).
    assert (SW : step (fun y => exists c, In c (children (VLinearParams i w b)) /\ part c y) st st1) by (eapply step_weak; [|exact S1]; intros y K; exists w; split; [now left|exact K]).
    destruct b as [b|].
    + destruct (IValueModel.import_value opts import_function get_functions exported b st1) as [[vb st2]|] eqn:E2; [|discriminate]. cbn [rbind emit] in E. injection E as <- <-. inversion KB as [|? ? Ub _]; subst. destruct (IHb b eq_refl Ub st1 st2 vb I1 E2) as (I2 & S2 & N2 & A2).
      apply finish; auto; try discriminate; [|exact Logic.I| | |congruence].
      * eapply step_trans; [exact SW|]. eapply step_weak; [|exact S2]. intros y K. exists b. split; [right; now left|exact K].
      * intros w' [<-|[<-|[]]]; [exists w; exact (step_known _ _ _ _ _ S2 N1)|eauto].
      * exists vw, (Some vb). split; [apply nth_last|]. split; [exact (step_known _ _ _ _ _ S2 N1)|exact N2].
    + cbn [rbind emit] in E. injection E as <- <-. apply finish; auto; try discriminate; [exact Logic.I| |].
      * intros w' [<-|[]]. eauto.
      * exists vw, None. split; [apply nth_last|]. split; [exact N1|exact Logic.I].
  - discriminate.
Qed.
(** Everything inside a known object is known. *)
Lemma kids_known l (R : nat -> ivalue -> Prop) v x : @denotes func opts l R v x -> forall y, In y (children x) -> exists u, R u y.
Proof.
  assert (F2 : forall vs m y, Forall2 R vs m -> In y m -> exists u, R u y) by (intros vs m y F; induction F as [|a b vs m K _ IH]; [intros []|intros [<-|J]; eauto]).
  destruct x as [| | | | |i e m|i k e m|i m|i t|i c cu m|i w b|i]; cbn [denotes children]; try solve [intros _ y []].
  - intros (t & vs & _ & _ & F) y K. eauto.
  - intros (t & ks & vs & _ & _ & F & G) y K. apply in_flat_map in K as (p & K & [<-|[<-|[]]]); [apply (F2 ks (map fst m) _ F)|apply (F2 vs (map snd m) _ G)]; now apply in_map.
  - intros (vs & _ & F) y K. eauto.
  - intros (_ & r & _ & K) y. destruct (quantized t) as [[s z|]|]; [|intros []|intros []]. destruct K as (u & us & uz & e & _ & A & B & _). intros [<-|[<-|[]]]; eauto.
  - intros (n & vs & _ & _ & _ & F) y K. eauto.
  - intros (u & bs & _ & A & B) y [<-|K]; [eauto|]. destruct b as [b|]; [|destruct K]. destruct K as [<-|[]]. destruct bs; [eauto|contradiction].
Qed.
Lemma parts_known p (st : state) x y : inv p st -> part x y -> (exists v, known st v x) -> exists u, known st u y.
Proof.
  intros I L. induction L as [|x c y K _ IH]; [auto|]. intros (v & z & M & S). apply IH. destruct S as [->|(a & b & -> & -> & _)]; [|destruct K]. apply (i_built p st I) in M. eapply kids_known; eassumption.
Qed.
Lemma stands_denotes l (R : nat -> ivalue -> Prop) v x y : stands y x -> @denotes func opts l R v y -> denotes opts l R v x.
Proof.
  intros [->|(a & b & -> & -> & A & B)]; [auto|]. cbn. intros (d & K & Q). exists d. split; [exact K|]. right. destruct Q as [->|[D _]]; auto.
Qed.
(** Restriction to the objects inside *)
Lemma denotes_within l (R Q : nat -> ivalue -> Prop) v x : @denotes func opts l R v x -> (forall u y, In y (children x) -> R u y -> Q u y) -> denotes opts l Q v x.
Proof.
  intros D H.
  assert (F2 : forall vs m, Forall2 R vs m -> (forall u y, In y m -> R u y -> Q u y) -> Forall2 Q vs m).
  { intros vs m F. induction F as [|a b vs m K _ IH]; intros G; constructor; [apply G; [now left|exact K]|apply IH; intros u y J; apply G; now right]. }
  destruct x as [| | | | |i e m|i k e m|i m|i t|i c cu m|i w b|i]; cbn [denotes children] in *; try exact D.
  - destruct D as (t & vs & A & B & F). exists t, vs. auto.
  - destruct D as (t & ks & vs & A & B & F & G). exists t, ks, vs. split; [exact A|]. split; [exact B|].
    split; apply F2; auto; intros u y K; apply H; apply in_map_iff in K as (p & <- & K); apply in_flat_map; exists p; cbn; auto.
  - destruct D as (vs & A & F). exists vs. auto.
  - destruct D as (N & r & S & K). split; [exact N|]. exists r. split; [exact S|]. destruct (quantized t) as [[s z|]|]; [|exact K|exact K]. destruct K as (u & us & uz & e & A & B & C & E & G). exists u, us, uz, e. split; [exact A|]. split; [apply H; [now left|exact B]|]. split; [apply H; [right; now left|exact C]|]. split; assumption.
  - destruct D as (n & vs & A & B & C & F). exists n, vs. auto 6.
  - destruct D as (u & bs & A & B & C). exists u, bs. split; [exact A|]. split; [apply H; [now left|exact B]|]. destruct b as [b|], bs as [v'|]; auto. apply H; [right; now left|exact C].
Qed.

(** ** What is said about shared storage is true. *)
Definition shares : Prop := exists i t i' t', U (VTensor i t) /\ U (VTensor i' t') /\ storage t = storage t' /\ i <> i'.
Definition leads (p : option (list string * string)) (names : list string) (reached : list string -> ivalue -> Prop) : Prop := forall path r, p = Some (path, r) -> exists rest i t, path = names ++ rest /\ reached rest (VTensor i t).
Definition honest (x : ivalue) : Prop := U x -> forall (st : state) p, inv None st -> import_value x st = Err (SharedStorage p) -> shares /\ leads p (attribute_names st) (at_path x).
Lemma leads_weak p names (f g : list string -> ivalue -> Prop) : (forall r y, f r y -> g r y) -> leads p names f -> leads p names g.
Proof. intros H L path r E. destruct (L path r E) as (rest & i & t & A & B). exists rest, i, t. auto. Qed.
Lemma list_honest l : Forall honest l -> Forall U l -> forall (st : state) p, inv None st -> import_list import_value l st = Err (SharedStorage p) -> shares /\ leads p (attribute_names st) (fun r y => exists x, In x l /\ at_path x r y).
Proof.
  induction l as [|x l IH]; intros HF HU st p I E; cbn [import_list] in E; [discriminate|]. inversion HF as [|? ? Hx HF']; subst. inversion HU as [|? ? Ux HU']; subst. destruct (import_value x st) as [[v st1]|f] eqn:E1; cbn [rbind] in E.
  - apply (all_imports x Ux st st1 v I) in E1 as (I1 & _ & _ & A1). destruct (import_list import_value l st1) as [[vs st2]|f] eqn:E2; cbn [rbind] in E; [discriminate|]. injection E as ->. rewrite <- A1. destruct (IH HF' HU' st1 p I1 E2) as [S L]. split; [exact S|]. revert L. apply leads_weak. intros r y (z & K & P). exists z. split; [now right|exact P].
  - injection E as ->. destruct (Hx Ux st p I E1) as [S L]. split; [exact S|]. revert L. apply leads_weak. intros r y P. exists x. split; [now left|exact P].
Qed.
Lemma pairs_honest l : Forall (fun p => honest (fst p) /\ honest (snd p)) l -> Forall (fun p => U (fst p) /\ U (snd p)) l -> forall (st : state) p, inv None st -> import_pairs import_value l st = Err (SharedStorage p) -> shares /\ leads p (attribute_names st) (fun r y => exists x, In x (flat_map (fun p => [fst p; snd p]) l) /\ at_path x r y).
Proof.
  induction l as [|[k x] l IH]; intros HF HU st p I E; cbn [import_pairs] in E; [discriminate|]. inversion HF as [|? ? [Hk Hx] HF']; subst. inversion HU as [|? ? [Uk Ux] HU']; subst. cbn in Hk, Hx, Uk, Ux. cbn [flat_map fst snd app]. destruct (import_value k st) as [[kv st0]|f] eqn:E0; cbn [rbind] in E.
  2:{ injection E as ->. destruct (Hk Uk st p I E0) as [S L]. split; [exact S|]. revert L. apply leads_weak. intros r y P. exists k. split; [now left|exact P]. }
  apply (all_imports k Uk st st0 kv I) in E0 as (I0 & _ & _ & A0). rewrite <- A0. destruct (import_value x st0) as [[v st1]|f] eqn:E1; cbn [rbind] in E.
  2:{ injection E as ->. destruct (Hx Ux st0 p I0 E1) as [S L]. split; [exact S|]. revert L. apply leads_weak. intros r y P. exists x. split; [right; now left|exact P]. }
  apply (all_imports x Ux st0 st1 v I0) in E1 as (I1 & _ & _ & A1). rewrite <- A1. destruct (import_pairs import_value l st1) as [[[ks vs] st2]|f] eqn:E2; cbn [rbind] in E; [discriminate|]. injection E as ->. destruct (IH HF' HU' st1 p I1 E2) as [S L]. split; [exact S|]. revert L. apply leads_weak. intros r y (z & K & P). exists z. split; [right; now right|exact P].
Qed.
Lemma slots_honest l : Forall honest l -> Forall U l -> forall names (st : state) p, inv None st -> import_slots import_value names l st = Err (SharedStorage p) -> shares /\ leads p (attribute_names st) (fun r y => exists n x r', In (n, x) (combine names l) /\ r = n :: r' /\ at_path x r' y).
Proof.
  induction l as [|x l IH]; intros HF HU [|n names] st p I E; cbn [import_slots] in E; try discriminate. inversion HF as [|? ? Hx HF']; subst. inversion HU as [|? ? Ux HU']; subst. pose proof (names_inv None (attribute_names st ++ [n]) (root_module st) st I) as I0. destruct (import_value x _) as [[v st1]|f] eqn:E1; cbn [rbind] in E.
  - apply (all_imports x Ux _ st1 v I0) in E1 as (I1 & _ & _ & A1). destruct (import_slots import_value names l _) as [[vs st2]|f] eqn:E2; cbn [rbind] in E; [discriminate|]. injection E as ->. destruct (IH HF' HU' names _ p (names_inv None _ _ st1 I1) E2) as [S L]. split; [exact S|]. cbn [attribute_names with_names] in L, A1. rewrite A1, removelast_last in L.
    revert L. apply leads_weak. intros r y (n' & z & r' & K & -> & P). exists n', z, r'. split; [now right|auto].
  - injection E as ->. destruct (Hx Ux _ p I0 E1) as [S L]. split; [exact S|]. cbn [attribute_names with_names] in L. intros path r E. destruct (L path r E) as (rest & i & t & -> & P). exists (n :: rest), i, t. split; [now rewrite <- app_assoc|]. exists n, x, rest. split; [now left|auto].
Qed.
Lemma functions_honest l : forall (st : state) p, import_functions import_function l st <> Err (SharedStorage p).
Proof. induction l as [|f l IH]; intros st p; cbn [import_functions]; [discriminate|]. destruct (import_function f); cbn; [apply IH|discriminate]. Qed.
Lemma all_honest : forall x, honest x.
Proof.
  assert (KIDS : forall x, U x -> Forall U (children x)) by (intros x Ux; apply Forall_forall; intros y K; now apply (closed x)).
  induction x as [b|z|d|s| |i e l IH|i k e l IH|i l IH|i t|i c cu l IH|i w b IHw IHb|i] using ivalue_tree; intros Ux st p I E; cbn [IValueModel.import_value] in E;
    match type of E with context [find_value st ?y] => destruct (find_value st y) as [u|] eqn:F; [discriminate|] end; cbn [check_storage rbind emit] in E; specialize (KIDS _ Ux); cbn [children] in KIDS; try discriminate.
  - destruct (import_list _ l st) as [[vs st1]|f] eqn:E1; cbn [rbind] in E; [destruct (from_torch opts e); discriminate|]. injection E as ->. destruct (list_honest l IH KIDS st p I E1) as [S L]. split; [exact S|]. revert L. apply leads_weak. intros r y (x & K & P). apply (path_inside _ x); [discriminate|exact K|exact P].
  - assert (KP : Forall (fun p => U (fst p) /\ U (snd p)) l). { apply Forall_forall. intros [a b] K. rewrite Forall_forall in KIDS. split; apply KIDS; apply in_flat_map; exists (a, b); cbn; auto. }
    destruct (import_pairs _ l st) as [[[ks vs] st1]|f] eqn:E1; cbn [rbind] in E; [destruct (from_torch opts (JDict k e)); discriminate|]. injection E as ->. destruct (pairs_honest l IH KP st p I E1) as [S L]. split; [exact S|]. revert L. apply leads_weak. intros r y (x & K & P). apply (path_inside _ x); [discriminate|exact K|exact P].
  - destruct (import_list _ l st) as [[vs st1]|f] eqn:E1; cbn [rbind] in E; [discriminate|]. injection E as ->. destruct (list_honest l IH KIDS st p I E1) as [S L]. split; [exact S|]. revert L. apply leads_weak. intros r y (x & K & P). apply (path_inside _ x); [discriminate|exact K|exact P].
  - destruct (existsb (Nat.eqb (storage t)) (seen_storages st)) eqn:SE.
    + cbn [rbind] in E. injection E as <-. split.
      * apply existsb_exists in SE as (s & K & Q). apply Nat.eqb_eq in Q. subst s. apply (i_stored None st I) in K as [K|(j & t' & v & K & Q)]; [discriminate|]. exists i, t, j, t'. split; [exact Ux|]. split; [exact (i_key None st I _ _ K)|]. split; [congruence|]. intros <-. apply (find_none st _ F) in K. cbn in K. rewrite Nat.eqb_refl in K. discriminate.
      * intros path r E. destruct (root_module st); [|discriminate]. injection E as <- <-. exists [], i, t. split; [now rewrite app_nil_r|constructor].
    + cbn [rbind] in E. unfold import_tensor in E. destruct (elements_attr (scalar t)) as [el|]; cbn [of_option rbind emit] in E; [|discriminate]. destruct (quantized t) as [[s z|]|]; [|discriminate|discriminate]. destruct (import_number (VDouble s) (OFloat s) _) as [us st2]. destruct (import_number (VInt z) (OInt z) st2) as [uz st3]. discriminate.
  - destruct (c_name c) as [n|]; cbn [of_option rbind] in E; [|discriminate]. destruct (import_compilation_unit import_function get_functions cu st) as [st1|f] eqn:E1; cbn [rbind] in E.
    2:{ injection E as ->. unfold import_compilation_unit in E1. destruct (compilation_unit st); [destruct (_ =? _); discriminate|]. now apply functions_honest in E1. }
    destruct (unit_step cu st st1 I ltac:(eauto) E1) as (I1 & _ & _ & A1). destruct (import_class_type opts exported c st1) as [st2|f] eqn:E2; cbn [rbind] in E.
    2:{ injection E as ->. unfold import_class_type in E2. destruct (existsb _ _); [discriminate|]. destruct (c_name c); [|discriminate]. destruct (import_attributes opts _ _); [|discriminate]. destruct (import_methods _ _); discriminate. }
    destruct (class_step c st1 st2 I1 ltac:(eauto) E2) as (I2 & _ & _ & _ & A2). destruct (import_slots _ (map fst (c_attributes c)) l _) as [[out st3]|f] eqn:E3; cbn [rbind] in E; [discriminate|]. injection E as ->. destruct (slots_honest l IH KIDS _ _ p (names_inv None _ _ st2 I2) E3) as [S L]. split; [exact S|].
    cbn [attribute_names with_names] in L. rewrite A2, A1 in L. revert L. apply leads_weak. intros r y (n' & x & r' & K & -> & P). now apply (path_slot i c cu l n' x).
  - inversion KIDS as [|? ? Uw KB]; subst. destruct (IValueModel.import_value opts import_function get_functions exported w st) as [[vw st1]|f] eqn:E1; cbn [rbind] in E.
    2:{ injection E as ->. destruct (IHw Uw st p I E1) as [S L]. split; [exact S|]. revert L. apply leads_weak. intros r y P. apply (path_inside _ w); [discriminate|now left|exact P]. }
    apply (all_imports w Uw st st1 vw I) in E1 as (I1 & _ & _ & A1).
    destruct b as [b|]; [|discriminate]. inversion KB as [|? ? Ub _]; subst. destruct (IValueModel.import_value opts import_function get_functions exported b st1) as [[vb st2]|f] eqn:E2; cbn [rbind] in E; [discriminate|]. injection E as ->. destruct (IHb b eq_refl Ub st1 p I1 E2) as [S L]. rewrite A1 in L. split; [exact S|]. revert L. apply leads_weak. intros r y P. apply (path_inside _ b); [discriminate|right; now left|exact P].
Qed.

(** ** When the import succeeds *)
Context (all_fine : forall x, U x -> fine opts exported import_function get_functions x).
Context (apart : forall i t i' t', U (VTensor i t) -> U (VTensor i' t') -> storage t = storage t' -> i = i').
Context (one_unit : forall i c cu l i' c' cu' l', U (VModule i c cu l) -> U (VModule i' c' cu' l') -> cu = cu').
Definition completes (x : ivalue) : Prop := U x -> forall st : state, inv None st -> exists v st', import_value x st = Ok (v, st').
Lemma list_completes l : Forall completes l -> Forall U l -> forall st : state, inv None st -> exists vs st', import_list import_value l st = Ok (vs, st').
Proof.
  induction l as [|x l IH]; intros HF HU st I; cbn [import_list]; [eauto|]. inversion HF as [|? ? Hx HF']; subst. inversion HU as [|? ? Ux HU']; subst. destruct (Hx Ux st I) as (v & st1 & E1). rewrite E1. cbn [rbind].
  apply (all_imports x Ux st st1 v I) in E1 as (I1 & _). destruct (IH HF' HU' st1 I1) as (vs & st2 & E2). rewrite E2. cbn. eauto.
Qed.
Lemma pairs_completes l : Forall (fun p => completes (fst p) /\ completes (snd p)) l -> Forall (fun p => U (fst p) /\ U (snd p)) l -> forall st : state, inv None st -> exists ks vs st', import_pairs import_value l st = Ok (ks, vs, st').
Proof.
  induction l as [|[k x] l IH]; intros HF HU st I; cbn [import_pairs]; [eauto|]. inversion HF as [|? ? [Hk Hx] HF']; subst. inversion HU as [|? ? [Uk Ux] HU']; subst. cbn in *. destruct (Hk Uk st I) as (kv & st0 & E0). rewrite E0. cbn [rbind].
  apply (all_imports k Uk st st0 kv I) in E0 as (I0 & _). destruct (Hx Ux st0 I0) as (v & st1 & E1). rewrite E1. cbn [rbind]. apply (all_imports x Ux st0 st1 v I0) in E1 as (I1 & _). destruct (IH HF' HU' st1 I1) as (ks & vs & st2 & E2). rewrite E2. cbn. eauto.
Qed.
Lemma slots_complete l : Forall completes l -> Forall U l -> forall names (st : state), List.length names = List.length l -> inv None st -> exists out st', import_slots import_value names l st = Ok (out, st').
Proof.
  induction l as [|x l IH]; intros HF HU [|n names] st L I; try discriminate; cbn [import_slots]; [eauto|]. inversion HF as [|? ? Hx HF']; subst. inversion HU as [|? ? Ux HU']; subst. pose proof (names_inv None (attribute_names st ++ [n]) (root_module st) st I) as I0. destruct (Hx Ux _ I0) as (v & st1 & E1). rewrite E1. cbn [rbind].
  apply (all_imports x Ux _ st1 v I0) in E1 as (I1 & _). destruct (IH HF' HU' names _ ltac:(cbn in L; lia) (names_inv None (removelast (attribute_names st1)) (root_module st1) st1 I1)) as (vs & st2 & E2). rewrite E2. cbn. eauto.
Qed.
Lemma unit_completes i c cu l (st : state) : U (VModule i c cu l) -> inv None st -> exists st', import_compilation_unit import_function get_functions cu st = Ok st'.
Proof.
  intros Um I. unfold import_compilation_unit. destruct (compilation_unit st) as [cu'|] eqn:C.
  - destruct (i_module None st I cu' C) as (i' & c' & l' & Um'). rewrite (one_unit _ _ _ _ _ _ _ _ Um' Um), Nat.eqb_refl. eauto.
  - destruct (all_fine _ Um) as (_ & _ & FN). assert (G : exists gs, map Some gs = map import_function (get_functions cu)).
    { revert FN. generalize (get_functions cu) as fs. induction fs as [|f fs IH]; intros FN; [exists []; reflexivity|]. destruct IH as (gs & E); [intros g K; apply FN; now right|]. specialize (FN f (or_introl eq_refl)). destruct (import_function f) as [g|] eqn:Q; [|now contradiction FN]. exists (g :: gs). cbn. congruence. }
    destruct G as (gs & G). match goal with |- exists st', import_functions _ _ ?s = _ => exists (with_ops s (ops s ++ map OFunc gs)) end. apply functions_ok. exists gs. auto.
Qed.
Lemma class_completes i c cu l (st : state) : U (VModule i c cu l) -> exists st', import_class_type opts exported c st = Ok st'.
Proof.
  intros Um. unfold import_class_type. destruct (existsb _ _); [eauto|]. destruct (all_fine _ Um) as (_ & (n & a & m & N & A & M) & _). apply attributes_ok in A. apply methods_ok in M. rewrite N, A, M. cbn. eauto.
Qed.
Lemma all_complete : forall x, completes x.
Proof.
  assert (KIDS : forall x, U x -> Forall U (children x)) by (intros x Ux; apply Forall_forall; intros y K; now apply (closed x)).
  induction x as [b|z|d|s| |i e l IH|i k e l IH|i l IH|i t|i c cu l IH|i w b IHw IHb|i] using ivalue_tree; intros Ux st I; cbn [IValueModel.import_value];
    match goal with |- context [find_value st ?y] => destruct (find_value st y) as [u|] eqn:F; [eauto|] end; cbn [check_storage rbind emit]; specialize (KIDS _ Ux); cbn [children] in KIDS; pose proof (all_fine _ Ux) as FI; cbn [fine] in FI; try solve [eauto].
  - destruct (list_completes l IH KIDS st I) as (vs & st1 & E1). rewrite E1. cbn [rbind]. destruct FI as [t T]. apply C119_types in T. rewrite T. cbn. eauto.
  - assert (KP : Forall (fun p => U (fst p) /\ U (snd p)) l). { apply Forall_forall. intros [a b] K. rewrite Forall_forall in KIDS. split; apply KIDS; apply in_flat_map; exists (a, b); cbn; auto. }
    destruct (pairs_completes l IH KP st I) as (ks & vs & st1 & E1). rewrite E1. cbn [rbind]. destruct FI as [t T]. apply C119_types in T. rewrite T. cbn. eauto.
  - destruct (list_completes l IH KIDS st I) as (vs & st1 & E1). rewrite E1. cbn. eauto.
  - destruct (existsb (Nat.eqb (storage t)) (seen_storages st)) eqn:SE.
    + exfalso. apply existsb_exists in SE as (s & K & Q). apply Nat.eqb_eq in Q. subst s. apply (i_stored None st I) in K as [K|(j & t' & v & K & Q)]; [discriminate|]. pose proof (i_key None st I _ _ K) as Uj. pose proof (apart _ _ _ _ Uj Ux Q) as <-. apply (find_none st _ F) in K. cbn in K. rewrite Nat.eqb_refl in K. discriminate.
    + cbn [rbind]. unfold import_tensor. destruct FI as (NS & ST & NQ). destruct (elements_attr (scalar t)) as [[el c]|] eqn:EL.
      * cbn [of_option rbind emit fst]. destruct (quantized t) as [[s z|]|]; [|now contradiction NQ|cbn; eauto]. destruct (import_number (VDouble s) (OFloat s) _) as [us st2]. destruct (import_number (VInt z) (OInt z) st2) as [uz st3]. cbn. eauto.
      * exfalso. destruct (scalar t); cbn in *; try discriminate; now contradiction ST || now contradiction NS.
  - destruct FI as (LE & (n & a & m & CD) & FN). pose proof CD as (N & _). rewrite N. cbn [of_option rbind]. destruct (unit_completes i c cu l st Ux I) as (st1 & E1). rewrite E1. cbn [rbind]. destruct (unit_step cu st st1 I ltac:(eauto) E1) as (I1 & _).
    destruct (class_completes i c cu l st1 Ux) as (st2 & E2). rewrite E2. cbn [rbind]. destruct (class_step c st1 st2 I1 ltac:(eauto) E2) as (I2 & _).
    match goal with |- context [import_slots _ ?ns l ?s] => destruct (slots_complete l IH KIDS ns s) as (out & st3 & E3); [rewrite map_length; congruence|now apply names_inv|rewrite E3] end. cbn. eauto.
  - inversion KIDS as [|? ? Uw KB]; subst. destruct (IHw Uw st I) as (vw & st1 & E1). rewrite E1. cbn [rbind]. apply (all_imports w Uw st st1 vw I) in E1 as (I1 & _). destruct b as [b|]; [|cbn; eauto]. inversion KB as [|? ? Ub _]; subst. destruct (IHb b eq_refl Ub st1 I1) as (vb & st2 & E2). rewrite E2. cbn. eauto.
  - contradiction.
Qed.
End Import.
