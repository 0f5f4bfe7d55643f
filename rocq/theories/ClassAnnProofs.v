(** Lemmas about annotations of classes. *)
From Coq Require Import ZArith Bool String Lia List.
From Verif Require Import Prelude ClassAnnModel ClassAnnSpec.
Import ListNotations.
Open Scope string_scope.
Open Scope list_scope.
Open Scope nat_scope.

Section ClassTree.
Context (P : class -> Prop).
Definition on_child (p : string * option class) : Prop := match snd p with Some d => P d | None => True end.
Context (H : forall n attrs ms, Forall on_child attrs -> P (Class n attrs ms)).
Fixpoint class_tree (c : class) : P c :=
  match c with
  | Class n attrs ms => H n attrs ms
      ((fix all (l : list (string * option class)) : Forall on_child l :=
          match l with
          | [] => Forall_nil on_child
          | (y, Some e) :: r => Forall_cons (y, Some e) (class_tree e) (all r)
          | (y, None) :: r => Forall_cons (y, None) Logic.I (all r)
          end) attrs)
  end.
End ClassTree.
Section ModuleTree.
Context (P : pymodule -> Prop) (H : forall c ms children b, Forall (fun p => P (snd p)) children -> P (Module c ms children b)).
Fixpoint module_tree (m : pymodule) : P m :=
  match m with
  | Module c ms children b => H c ms children b
      ((fix all (l : list (string * pymodule)) : Forall (fun p => P (snd p)) l :=
          match l with [] => Forall_nil _ | p :: r => Forall_cons p (module_tree (snd p)) (all r) end) children)
  end.
End ModuleTree.

Lemma lookup_find {A} (l : list (string * A)) k : lookup_s l k = option_map snd (find (fun p => String.eqb (fst p) k) l).
Proof. induction l as [|[x v] r IH]; [reflexivity|]. cbn [lookup_s find fst]. destruct (String.eqb x k); [reflexivity|exact IH]. Qed.
Lemma lookup_id_find {A} (l : list (nat * A)) k : lookup_id l k = option_map snd (find (fun p => fst p =? k) l).
Proof. induction l as [|[x v] r IH]; [reflexivity|]. cbn [lookup_id find fst]. destruct (x =? k); [reflexivity|exact IH]. Qed.
Lemma lookup_in {A} (l : list (string * A)) k v : NoDup (map fst l) -> (lookup_s l k = Some v <-> In (k, v) l).
Proof.
  induction l as [|[x w] r IH]; [split; [discriminate|intros []]|]. cbn [map fst lookup_s]. intros N. inversion_clear N as [|? ? N1 N2].
  destruct (String.eqb_spec x k) as [->|D].
  - split; [intros E; injection E as ->; now left|]. intros [E|K]; [now injection E as ->|]. exfalso. apply N1. apply in_map_iff. now exists (k, v).
  - rewrite IH by exact N2. split; [now right|]. intros [E|K]; [congruence|exact K].
Qed.
Lemma lookup_none {A} (l : list (string * A)) k : lookup_s l k = None <-> ~ In k (map fst l).
Proof.
  induction l as [|[x w] r IH]; [split; [intros _ []|reflexivity]|]. cbn [map fst lookup_s]. destruct (String.eqb_spec x k) as [->|D].
  - split; [discriminate|]. intros N. exfalso. apply N. now left.
  - rewrite IH. split; [intros N [E|K]; [congruence|contradiction]|intros N K; apply N; now right].
Qed.
Lemma nth_in_names {A} (f : A -> string) l i n x : nth_error l i = Some x -> f x = n -> In n (map f l).
Proof. intros N <-. apply in_map. now apply nth_error_In in N. Qed.

Section World.
Context (U : class -> Prop) (W : world U).

Lemma same_or_not c d : U c -> U d -> c = d \/ c <> d.
Proof. intros Uc Ud. destruct (string_dec (class_name c) (class_name d)) as [E|N]; [left; now apply (named U W)|right; congruence]. Qed.
Lemma name_other c d : U c -> U d -> c <> d -> String.eqb (class_name c) (class_name d) = false.
Proof. intros Uc Ud N. apply String.eqb_neq. intros E. apply N. now apply (named U W). Qed.

Lemma view_put_self st c a : view (put st (class_name c) a) c = a.
Proof. unfold view, put. cbn [class_annotations find fst]. now rewrite String.eqb_refl. Qed.
Lemma view_put_other st c d a : U c -> U d -> c <> d -> view (put st (class_name c) a) d = view st d.
Proof. intros Uc Ud N. unfold view, put. cbn [class_annotations find fst]. now rewrite name_other. Qed.
Lemma map_const {A B} (x : B) (l : list A) : map (fun _ => x) l = repeat x (length l).
Proof. induction l as [|y l IH]; [reflexivity|]. cbn [map length repeat]. now rewrite IH. Qed.
Lemma goc_snd st c : snd (get_or_create st c) = view st c.
Proof.
  unfold get_or_create, view. rewrite lookup_find. destruct (find _ (class_annotations st)); [reflexivity|]. cbn [option_map snd]. unfold new_annotation. now rewrite !map_const.
Qed.
Lemma goc_view st c d : U c -> U d -> view (fst (get_or_create st c)) d = view st d.
Proof.
  intros Uc Ud. pose proof (goc_snd st c) as G. revert G. unfold get_or_create. rewrite lookup_find. destruct (find (fun p => String.eqb (fst p) (class_name c)) (class_annotations st)) eqn:F; [reflexivity|]. cbn [option_map fst snd].
  intros G. destruct (same_or_not c d Uc Ud) as [<-|N].
  - rewrite <- G. unfold view. cbn [class_annotations find fst]. now rewrite String.eqb_refl.
  - unfold view. cbn [class_annotations find fst]. now rewrite name_other.
Qed.
Lemma index_other l n : forall i m k, (forall f, In f l -> f_id f <> k) -> find (fun p => fst p =? k) (index_functions l n i m) = find (fun p => fst p =? k) m.
Proof.
  induction l as [|f l IH]; intros i m k N; [reflexivity|]. cbn [index_functions]. rewrite IH by (intros g K; apply N; now right). cbn [find fst].
  destruct (Nat.eqb_spec (f_id f) k) as [E|_]; [|reflexivity]. exfalso. apply (N f); [now left|exact E].
Qed.
Lemma index_own l n : forall i m j f, NoDup (map f_id l) -> nth_error l j = Some f -> find (fun p => fst p =? f_id f) (index_functions l n i m) = Some (f_id f, (n, i + j)).
Proof.
  induction l as [|g l IH]; intros i m j f N E; [destruct j; discriminate|]. cbn [map] in N. inversion_clear N as [|? ? N1 N2]. cbn [index_functions]. destruct j as [|j].
  - injection E as ->. rewrite index_other. { cbn [find fst]. now rewrite Nat.eqb_refl, Nat.add_0_r. }
    intros g K E. apply N1. rewrite <- E. now apply in_map.
  - rewrite (IH (S i) _ j f N2 E). do 3 f_equal. lia.
Qed.
Lemma ids_nodup c : U c -> NoDup (map f_id (methods c)).
Proof.
  intros Uc. apply NoDup_nth_error. intros i j L E. rewrite map_length in L. rewrite !nth_error_map in E.
  destruct (nth_error (methods c) i) as [f|] eqn:F; [|apply nth_error_None in F; lia]. destruct (nth_error (methods c) j) as [g|] eqn:G; [|discriminate].
  cbn in E. injection E as E. now destruct (functions U W c c i j f g Uc Uc F G E).
Qed.
Lemma find_in_names {A} (l : list (string * A)) k : (exists p, find (fun p => String.eqb (fst p) k) l = Some p) <-> In k (map fst l).
Proof.
  induction l as [|[x v] r IH]; [split; [intros [p E]; discriminate|intros []]|]. cbn [find fst map]. destruct (String.eqb_spec x k) as [->|N].
  - split; [intros _; now left|eauto].
  - rewrite IH. split; [now right|intros [E|K]; [congruence|exact K]].
Qed.
Lemma goc_describes st c : U c -> describes U st -> describes U (fst (get_or_create st c)) /\ In (class_name c) (map fst (class_annotations (fst (get_or_create st c)))).
Proof.
  intros Uc D. assert (SZ : forall d, U d -> length (attribute_annotations (view (fst (get_or_create st c)) d)) = length (attributes d) /\ length (method_annotations (view (fst (get_or_create st c)) d)) = length (methods d)).
  { intros d Ud. rewrite goc_view by assumption. now apply (sizes U st D). }
  unfold get_or_create in *. rewrite lookup_find in *. destruct (find (fun p => String.eqb (fst p) (class_name c)) (class_annotations st)) as [p|] eqn:F; cbn [option_map fst] in *.
  - split; [exact D|]. apply find_in_names. eauto.
  - assert (NI : ~ In (class_name c) (map fst (class_annotations st))) by (intros K; apply find_in_names in K as [q K]; congruence).
    split; [|now left]. split; [exact SZ|]. intros d i f Ud E p. cbn [function_to_method class_annotations map fst]. destruct (same_or_not c d Uc Ud) as [<-|N].
    + rewrite (index_own _ _ 0 _ i f (ids_nodup c Uc) E). split; [intros X; injection X as <-; split; [now left|reflexivity]|intros [_ ->]; reflexivity].
    + rewrite index_other. { rewrite (places U st D d i f Ud E p). split; [intros [K ->]; split; [now right|reflexivity]|]. intros [[K|K] ->]; [exfalso; apply N; now apply (named U W)|now split]. }
      intros g K X. apply In_nth_error in K as [j K]. destruct (functions U W c d j i g f Uc Ud K E X). contradiction.
Qed.
(** Changing the annotation of one class *)
Lemma change st c a : U c -> describes U st -> length (attribute_annotations a) = length (attributes c) -> length (method_annotations a) = length (methods c) ->
  let st' := put (fst (get_or_create st c)) (class_name c) a in
  describes U st' /\ view st' c = a /\ forall d, U d -> c <> d -> view st' d = view st d.
Proof.
  intros Uc D L1 L2 st'. destruct (goc_describes st c Uc D) as [D' K]. assert (V : view st' c = a) by apply view_put_self.
  assert (O : forall d, U d -> c <> d -> view st' d = view st d) by (intros d Ud N; unfold st'; rewrite view_put_other by assumption; now apply goc_view).
  split; [|now split]. split.
  - intros d Ud. destruct (same_or_not c d Uc Ud) as [<-|N]; [now rewrite V|]. rewrite O by assumption. now apply (sizes U st D).
  - intros d i f Ud E p. unfold st'. cbn [put function_to_method class_annotations map fst]. rewrite (places U _ D' d i f Ud E p). split; [intros [J ->]; split; [now right|reflexivity]|].
    intros [[J|J] ->]; [split; [now rewrite <- J|reflexivity]|now split].
Qed.

(** ** exportNone *)
Definition cleared (a : class_annotation) : class_annotation :=
  {| attribute_annotations := map (fun _ => false) (attribute_annotations a);
     method_annotations := map (fun m => {| is_exported := false; arg_annotations := arg_annotations m |}) (method_annotations a) |}.
Lemma cleared_twice a : cleared (cleared a) = cleared a.
Proof. unfold cleared. cbn. now rewrite !map_map. Qed.
Lemma export_none_is c : U c -> forall st, describes U st -> describes U (export_none st c) /\
  forall d, U d -> (below c d /\ view (export_none st c) d = cleared (view st d)) \/ (~ below c d /\ view (export_none st c) d = view st d).
Proof.
  induction c as [n attrs ms IH] using class_tree. intros Uc st D.
  set (c := Class n attrs ms) in *. destruct (change st c (cleared (view st c)) Uc D) as (D0 & V0 & O0).
  { unfold cleared. cbn [attribute_annotations]. rewrite map_length. now apply (sizes U st D). } { unfold cleared. cbn [method_annotations]. rewrite map_length. now apply (sizes U st D). }
  set (st0 := put (fst (get_or_create st c)) (class_name c) (cleared (view st c))) in *.
  assert (E : export_none st c = (fix children (l : list (string * option class)) (st : annotator) : annotator :=
         match l with [] => st | (_, Some child) :: r => children r (export_none st child) | (_, None) :: r => children r st end) attrs st0).
  { unfold st0. unfold c at 1. cbn [export_none]. fold c. rewrite <- (goc_snd st c). destruct (get_or_create st c). reflexivity. }
  assert (UC : forall x d, In (x, Some d) attrs -> U d) by (intros x d K; apply (closed U W c x d Uc); exact K).
  assert (L : forall l, incl l attrs -> Forall (on_child (fun c => U c -> forall st, describes U st -> describes U (export_none st c) /\
      forall d, U d -> (below c d /\ view (export_none st c) d = cleared (view st d)) \/ (~ below c d /\ view (export_none st c) d = view st d))) l -> forall s, describes U s ->
    let s' := (fix children (l : list (string * option class)) (st : annotator) : annotator :=
         match l with [] => st | (_, Some child) :: r => children r (export_none st child) | (_, None) :: r => children r st end) l s in
    describes U s' /\ forall d, U d -> ((exists x e, In (x, Some e) l /\ below e d) /\ view s' d = cleared (view s d)) \/ (~ (exists x e, In (x, Some e) l /\ below e d) /\ view s' d = view s d)).
  { clear IH E. induction l as [|[x [e|]] l IHl]; intros INC FA s Ds.
    - split; [exact Ds|]. intros d Ud. right. split; [intros (x & e & [] & _)|reflexivity].
    - inversion_clear FA as [|? ? F1 F2]. assert (Ue : U e) by (apply (UC x); apply INC; now left). destruct (F1 Ue s Ds) as [D1 V1].
      destruct (IHl (fun y K => INC y (or_intror K)) F2 (export_none s e) D1) as [D2 V2]. split; [exact D2|]. intros d Ud. destruct (V2 d Ud) as [[B E2]|[B E2]], (V1 d Ud) as [[B' E1]|[B' E1]]; rewrite E2, E1.
      + left. split; [exists x, e; split; [now left|exact B']|apply cleared_twice].
      + left. split; [destruct B as (y & f & K & B); exists y, f; split; [now right|exact B]|reflexivity].
      + left. split; [exists x, e; split; [now left|exact B']|reflexivity].
      + right. split; [|reflexivity]. intros (y & f & [K|K] & Bf); [injection K as <- <-; contradiction|]. apply B. eauto.
    - inversion_clear FA as [|? ? F1 F2]. destruct (IHl (fun y K => INC y (or_intror K)) F2 s Ds) as [D2 V2]. split; [exact D2|]. intros d Ud. destruct (V2 d Ud) as [[B E2]|[B E2]].
      + left. split; [destruct B as (y & f & K & B); exists y, f; split; [now right|exact B]|exact E2].
      + right. split; [|exact E2]. intros (y & f & [K|K] & Bf); [discriminate|]. apply B. eauto. }
  destruct (L attrs (fun y K => K) IH st0 D0) as [D1 V1]. rewrite <- E in D1, V1. split; [exact D1|]. intros d Ud.
  assert (BI : forall d, below c d <-> d = c \/ exists x e, In (x, Some e) attrs /\ below e d).
  { intros d'. split.
    - intros B. inversion B as [|? x e ? K B']; [now left|]. right. exists x, e. now split.
    - intros [->|(x & e & K & B)]; [constructor|]. apply (below_child c x e d'); [exact K|exact B]. }
  destruct (same_or_not c d Uc Ud) as [<-|N].
  - left. split; [constructor|]. destruct (V1 c Ud) as [[_ E1]|[_ E1]]; rewrite E1, V0; [apply cleared_twice|reflexivity].
  - destruct (V1 d Ud) as [[B E1]|[B E1]]; rewrite E1, (O0 d Ud N); [left|right]; (split; [|reflexivity]).
    + apply BI. now right.
    + intros K. apply BI in K as [->|K]; [congruence|contradiction].
Qed.

(** ** exportPath and annotateArgs *)
Lemma path_iff : forall p c e, U c -> (class_at_path c p = Some e <-> leads c p e).
Proof.
  induction p as [|x p IH]; intros c e Uc.
  - cbn. split; [intros E; injection E as <-; constructor|intros L; inversion L; reflexivity].
  - cbn [class_at_path]. pose proof (attribute_names U W c Uc) as N. split.
    + destruct (lookup_s (attributes c) x) as [[d|]|] eqn:E; try discriminate. intros K. apply lookup_in in E; [|exact N]. apply (leads_child c x d p e E). apply IH; [now apply (closed U W c x d)|exact K].
    + intros L. inversion L as [|? ? d ? ? K L']; subst. apply lookup_in in K as K'; [|exact N]. rewrite K'. apply IH; [now apply (closed U W c x d)|exact L'].
Qed.
Lemma leads_U p c e : U c -> leads c p e -> U e.
Proof. intros Uc L. induction L as [|c n d r e K L IH]; [exact Uc|]. apply IH. now apply (closed U W c n d). Qed.
Lemma mark_nth {X A} (nm : X -> bool) (f : A -> A) l : forall an i, length an = length l ->
  nth_error (mark nm f l an) i = match nth_error l i with Some x => option_map (fun a => if nm x then f a else a) (nth_error an i) | None => None end.
Proof.
  induction l as [|x l IH]; intros [|a an] i L; try discriminate; [destruct i; reflexivity|]. cbn [mark]. destruct i as [|i]; [reflexivity|]. cbn [nth_error]. apply IH. now injection L.
Qed.
Lemma mark_length {X A} (nm : X -> bool) (f : A -> A) l : forall an, length (mark nm f l an) = length an.
Proof. induction l as [|x l IH]; intros [|a an]; try reflexivity. cbn [mark length]. now rewrite IH. Qed.
Definition marked (c : class) (last : string) (fa : bool -> bool) (fm : method_annotation -> method_annotation) (a : class_annotation) : class_annotation :=
  {| attribute_annotations := mark (fun x => String.eqb (fst x) last) fa (attributes c) (attribute_annotations a);
     method_annotations := mark (fun m => String.eqb (f_name m) last) fm (methods c) (method_annotations a) |}.
Lemma find_method_iff c n : (find_method c n <> None) <-> has_method c n.
Proof.
  unfold find_method, has_method. induction (methods c) as [|m l IH]; [split; [intros K; now contradiction K|intros []]|]. cbn [find map]. destruct (String.eqb_spec (f_name m) n) as [E|N].
  - split; [intros _; now left|discriminate].
  - rewrite IH. split; [now right|intros [E|K]; [contradiction|exact K]].
Qed.
Lemma export_path_is st root p n st' : U root -> describes U st -> (export_path st root (p ++ [n]) = Some st' <->
  exists c, leads root p c /\ (has_attribute c n \/ has_method c n) /\
    st' = put (fst (get_or_create st c)) (class_name c) (marked c n (fun _ => true) (fun m => {| is_exported := true; arg_annotations := arg_annotations m |}) (view st c))).
Proof.
  intros Ur D. unfold export_path. rewrite rev_app_distr. cbn [rev app]. rewrite rev_involutive.
  assert (G : forall c, match lookup_s (attributes c) n, find_method c n with None, None => false | _, _ => true end = true <-> has_attribute c n \/ has_method c n).
  { intros c. rewrite <- find_method_iff. unfold has_attribute. destruct (lookup_s (attributes c) n) eqn:E.
    - split; [intros _; left|reflexivity]. destruct (in_dec string_dec n (map fst (attributes c))) as [K|K]; [exact K|]. apply lookup_none in K. congruence.
    - apply lookup_none in E. destruct (find_method c n); [split; [intros _; right; discriminate|reflexivity]|]. split; [discriminate|intros [K|K]; [contradiction|congruence]]. }
  split.
  - destruct (class_at_path root p) as [c|] eqn:E; [|discriminate]. apply path_iff in E; [|exact Ur]. cbn [obind]. specialize (G c). destruct (match lookup_s (attributes c) n with Some _ => _ | None => _ end); [|discriminate]. cbn [guard obind].
    destruct (get_or_create st c) as [s a] eqn:GC. intros X. injection X as <-. exists c. split; [exact E|]. split; [now apply G|]. rewrite <- (goc_snd st c), GC. reflexivity.
  - intros (c & L & K & ->). apply path_iff in L; [|exact Ur]. rewrite L. cbn [obind]. apply G in K. rewrite K. cbn [guard obind]. rewrite <- goc_snd. destruct (get_or_create st c) as [s a]. reflexivity.
Qed.
Lemma annotate_args_is st root p n args st' : U root -> describes U st -> (annotate_args st root (p ++ [n]) args = Some st' <->
  exists c f, leads root p c /\ In f (methods c) /\ f_name f = n /\ length args = num_inputs f /\
    st' = put (fst (get_or_create st c)) (class_name c) (marked c n (fun b => b) (fun m => {| is_exported := is_exported m; arg_annotations := Some args |}) (view st c))).
Proof.
  intros Ur D. unfold annotate_args. rewrite rev_app_distr. cbn [rev app]. rewrite rev_involutive.
  assert (ID : forall l an, mark (fun x : string * option class => String.eqb (fst x) n) (fun b : bool => b) l an = an).
  { induction l as [|x l IH]; intros [|a an]; try reflexivity. cbn [mark]. rewrite IH. now destruct (String.eqb (fst x) n). }
  assert (FM : forall c f, U c -> (find_method c n = Some f <-> In f (methods c) /\ f_name f = n)).
  { intros c f Uc. unfold find_method. pose proof (method_names U W c Uc) as N. revert N. induction (methods c) as [|m l IH]; intros N; [split; [discriminate|intros [[] _]]|]. cbn [map] in N. inversion_clear N as [|? ? N1 N2]. cbn [find].
    destruct (String.eqb_spec (f_name m) n) as [E|X].
    - split; [intros Y; injection Y as <-; split; [now left|exact E]|]. intros [[->|K] E']; [reflexivity|]. exfalso. apply N1. rewrite E, <- E'. now apply in_map.
    - rewrite IH by exact N2. split; [intros [K E]; split; [now right|exact E]|intros [[->|K] E]; [contradiction|now split]]. }
  split.
  - destruct (class_at_path root p) as [c|] eqn:E; [|discriminate]. apply path_iff in E; [|exact Ur]. cbn [obind]. destruct (find_method c n) as [f|] eqn:F; [|discriminate]. apply FM in F; [|now apply (leads_U p root)]. cbn [obind].
    destruct (get_or_create st c) as [s a] eqn:GC. destruct (length args =? num_inputs f) eqn:LN; [|discriminate]. cbn [guard obind]. intros X. injection X as <-. apply Nat.eqb_eq in LN.
    exists c, f. split; [exact E|]. split; [apply F|]. split; [apply F|]. split; [exact LN|]. unfold marked. rewrite <- (goc_snd st c), GC. cbn [fst snd]. now rewrite ID.
  - intros (c & f & L & F1 & F2 & LN & ->). assert (F : find_method c n = Some f) by (apply FM; [now apply (leads_U p root)|now split]). apply path_iff in L; [|exact Ur]. rewrite L. cbn [obind]. rewrite F. cbn [obind].
    rewrite <- goc_snd. destruct (get_or_create st c) as [s a]. cbn [fst snd]. apply Nat.eqb_eq in LN. rewrite LN. cbn [guard obind]. unfold marked. now rewrite ID.
Qed.
Lemma marked_describes st c n fa fm : U c -> describes U st -> let st' := put (fst (get_or_create st c)) (class_name c) (marked c n fa fm (view st c)) in
  describes U st' /\ view st' c = marked c n fa fm (view st c) /\ forall d, U d -> c <> d -> view st' d = view st d.
Proof.
  intros Uc D. apply change; [exact Uc|exact D| |]; unfold marked; cbn [attribute_annotations method_annotations]; rewrite mark_length; now apply (sizes U st D).
Qed.
End World.
