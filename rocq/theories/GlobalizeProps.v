(** C122: what the globalisation of the object graph computes. *)
From Coq Require Import Bool PeanoNat String Lia List.
From Verif Require Import Prelude GlobalizeModel GlobalizeSpec GlobalizeProofs GlobalizeGraph GlobalizeNames.
Import ListNotations.
Open Scope string_scope.
Open Scope list_scope.
Open Scope nat_scope.

(** A run of a function on objects and data is a run of its specialisation on the data *)
Theorem C122_meaning :
  forall (w : world) p rounds x l r,
    analyze p = Some x -> specialise p rounds x = Some l -> globalize p rounds = Some r ->
    well_named p -> NoDup (map tname (new_functions r)) ->
    forall fuel f xs s ys s' g h,
      run w (functions p) fuel f xs s = Some (ys, s') -> name_in l (f, modules_at w 0 xs) = Some h ->
      agree w (modules p) (global_in x) (fst s) g ->
      ys = map (Dat w) (data_of w ys) /\
      exists g', trun w (new_functions r) fuel h (data_of w xs) (g, snd s) = Some (data_of w ys, (g', snd s')) /\
                 agree w (modules p) (global_in x) (fst s') g'.
Proof.
  intros w p rounds x l r A S G W N. unfold globalize in G. rewrite A in G. cbn [obind] in G. rewrite S in G. cbn [obind] in G.
  destruct (omap (new_function p x l) l) as [fs|] eqn:O; [|discriminate]. cbn [obind] in G. inj G. cbn [new_functions] in *.
  destruct (analyze_spec _ _ A) as (root & _ & T).
  assert (C : forallb (fun f => conforms_in (body_of f)) (functions p) = true).
  { unfold specialise in S. destruct (forallb (fun f => conforms_in (body_of f)) (functions p)); [reflexivity|discriminate]. }
  eapply (runs_agree w p x l fs O N (one_slot _ _ _ W T) C); eassumption.
Qed.

(** At the beginning the global slots hold what the slots hold *)
Theorem C122_initial :
  forall (w : world) p rounds x r constant,
    analyze p = Some x -> globalize p rounds = Some r -> well_named p ->
    agree w (modules p) (global_in x) (first_store w p constant) (first_gstore w (globals r) constant).
Proof.
  intros w p rounds x r constant A G W. unfold globalize in G. rewrite A in G. cbn [obind] in G. destruct (specialise p rounds x); [|discriminate]. cbn [obind] in G.
  destruct (omap _ _); [|discriminate]. cbn [obind] in G. inj G. cbn [globals]. destruct (analyze_spec _ _ A) as (root & _ & T). exact (first_agree w p x _ constant W T).
Qed.

(** Every module on the way is reached along one path, and the global slots are those of the used slots, named by their paths *)
Theorem C122_slots :
  forall p x,
    analyze p = Some x ->
    exists root, find_root (modules p) = Some root /\
      (forall i n n', path p (module_id root) n i -> path p (module_id root) n' i -> n = n') /\
      (forall i n g, In ((i, n), g) (links x) <-> held p (module_id root) i n g) /\
      (forall i n, (exists h, global_in x i n = Some h) <-> exists g, held p (module_id root) i n g) /\
      (well_named p -> forall i n i' n' h, global_in x i n = Some h -> global_in x i' n' = Some h -> i = i' /\ n = n').
Proof.
  intros p x A. destruct (analyze_spec _ _ A) as (root & R & T). exists root. split; [exact R|]. split; [exact (t_once _ _ _ _ _ _ T)|].
  split; [intros i n g; apply link_held; exact T|]. split; [|intros W; exact (one_slot _ _ _ W T)].
  intros i n. split.
  - intros (h & H). destruct (global_in_link _ _ _ _ H) as (g & G & _). exists g. apply (link_held _ _ _ _ _ _ T). exact G.
  - intros (g & G). apply (link_held _ _ _ _ _ _ T) in G. exact (link_global_in _ _ _ _ G).
Qed.

(** Every attribute read or written, at any depth, is one of a module of that class; these are the slots called used above *)
Theorem C122_accesses :
  forall p x,
    analyze p = Some x ->
    (forall t n, In (t, n) (all_accesses p) <-> exists f o, In f (functions p) /\ inside o (body_of f) /\ touches o (t, n)) /\
    (forall f o t n, In f (functions p) -> inside o (body_of f) -> touches o (t, n) -> exists m s, In m (modules p) /\ In s (slots m) /\ t = Mod (module_class m) /\ slot_name s = n).
Proof.
  intros p x A. split; [intros t n; apply all_accesses_spec|]. intros f o t n I J T.
  assert (K : In (t, n) (all_accesses p)) by (apply all_accesses_spec; exists f, o; auto).
  unfold analyze in A. destruct (find_root (modules p)); [|discriminate]. cbn [obind] in A. destruct (forallb (known_access (modules p)) (all_accesses p)) eqn:F; [|discriminate].
  rewrite forallb_forall in F. apply known_access_spec. exact (F _ K).
Qed.

(** The root is the only module that no slot holds *)
Theorem C122_root :
  forall p r, find_root (modules p) = Some r ->
    In r (modules p) /\ ~ held_by p (module_id r) /\ forall r', In r' (modules p) -> ~ held_by p (module_id r') -> r' = r.
Proof.
  intros p r H. apply find_root_spec in H. destruct H as (I & U & K). split; [exact I|]. split.
  - intros Q. apply is_used_spec in Q. congruence.
  - intros r' I' Q. apply K; [exact I'|]. destruct (is_used (modules p) (module_id r')) eqn:E; [|reflexivity]. apply is_used_spec in E. contradiction.
Qed.

(** The specialisations are those needed: of functions whose modules are the only ones of their classes, and of what these call *)
Theorem C122_specialisations :
  forall p rounds x l,
    specialise p rounds x = Some l ->
    (forall m, In m (map fst l) <-> needed p m) /\ NoDup (map fst l) /\
    (forall m, (exists h, name_in l m = Some h) <-> needed p m) /\
    (forall f, In f (functions p) -> Forall (fun v => is_module v = false) (plain_uses_in (body_of f))) /\
    (forall c d m m', In c (classes p) -> In d (methods c) -> method_private d = false -> needed p m -> needed p m' -> fst m = method_function d -> fst m' = method_function d -> m = m').
Proof.
  intros p rounds x l. unfold specialise. destruct (forallb (fun f => conforms_in (body_of f)) (functions p)) eqn:C; [|discriminate]. cbn [guard obind].
  destruct (monomorphizations p rounds) as [ms|] eqn:M; [|discriminate]. cbn [obind]. destruct (public_once p ms) eqn:P; [|discriminate]. cbn [guard obind]. intros N.
  destruct (monomorphizations_needed _ _ _ M) as [D Q]. destruct (named_spec _ _ _ _ _ N) as [F _]. rewrite F.
  split; [exact Q|]. split; [exact D|]. split; [|split].
  - intros m. rewrite <- Q, <- F. unfold name_in. split.
    + intros (h & H). destruct (find (fun e => mono_eqb (fst e) m) l) as [e|] eqn:E; [|discriminate]. apply find_some in E. destruct E as [E1 E2]. apply mono_eqb_eq in E2. subst m. apply in_map. exact E1.
    + intros I. apply in_map_iff in I. destruct I as (e & <- & I). destruct (find (fun e0 => mono_eqb (fst e0) (fst e)) l) as [e'|] eqn:E; [eexists; reflexivity|].
      apply (find_none _ _ E) in I. exfalso. assert (mono_eqb (fst e) (fst e) = true) by (apply mono_eqb_eq; reflexivity). congruence.
  - intros f I. rewrite forallb_forall in C. specialize (C f I). rewrite (proj2 conforms_spec) in C. unfold plain in C. rewrite forallb_forall in C.
    apply Forall_forall. intros v V. apply negb_true_iff. exact (C v V).
  - intros c d m m' Ic Id Pr Nm Nm' E E'. unfold public_once in P. rewrite forallb_forall in P. specialize (P c Ic). rewrite forallb_forall in P. specialize (P d Id). rewrite Pr in P. cbn in P. apply Nat.leb_le in P.
    rewrite (count_one _ _ D) in P. apply P; try apply Q; assumption.
Qed.
(** The program is refused only for these reasons *)
Theorem C122_accepted :
  forall p rounds x ms,
    monomorphizations p rounds = Some ms ->
    (forall f, In f (functions p) -> Forall (fun v => is_module v = false) (plain_uses_in (body_of f))) ->
    (forall c d m m', In c (classes p) -> In d (methods c) -> method_private d = false -> needed p m -> needed p m' -> fst m = method_function d -> fst m' = method_function d -> m = m') ->
    (forall m, needed p m -> find_function (functions p) (fst m) <> None) ->
    exists l, specialise p rounds x = Some l.
Proof.
  intros p rounds x ms M C P F. unfold specialise.
  assert (C' : forallb (fun f => conforms_in (body_of f)) (functions p) = true).
  { apply forallb_forall. intros f I. rewrite (proj2 conforms_spec). apply forallb_forall. intros v V. apply negb_true_iff. specialize (C f I). rewrite Forall_forall in C. exact (C v V). }
  rewrite C'. cbn [guard obind]. rewrite M. cbn [obind]. destruct (monomorphizations_needed _ _ _ M) as [D Q].
  assert (P' : public_once p ms = true).
  { apply forallb_forall. intros c Ic. apply forallb_forall. intros d Id. destruct (method_private d) eqn:Pr; [reflexivity|]. cbn. apply Nat.leb_le. apply count_one; [exact D|].
    intros m m' Im Im' E E'. exact (P c d m m' Ic Id Pr (proj1 (Q m) Im) (proj1 (Q m') Im') E E'). }
  rewrite P'. cbn [guard obind].
  assert (F' : forall m, In m ms -> find_function (functions p) (fst m) <> None) by (intros m I; apply F, Q; exact I).
  clear - F'. generalize 0. induction ms as [|m ms IH]; intros u; cbn [named]; [exists []; reflexivity|].
  destruct (find_function (functions p) (fst m)) as [f|] eqn:E; [|exfalso; apply (F' m); [left; reflexivity|exact E]]. cbn [obind].
  assert (IH' := IH (fun m' I => F' m' (or_intror I))). destruct (export_of x m).
  - destruct (IH' u) as (l & ->). eexists. reflexivity.
  - destruct (IH' (S u)) as (l & ->). eexists. reflexivity.
Qed.
(** Functions are specialised at the start when each of their modules is the only one of its class *)
Theorem C122_seeds :
  forall p args,
    (forall l, trivial p 0 args = Some l -> forall k i, In (k, i) l <-> exists v c, nth_error args k = Some (v, Mod c) /\ only_instance p c i) /\
    (trivial p 0 args = None <-> exists k v c, nth_error args k = Some (v, Mod c) /\ forall i, ~ only_instance p c i).
Proof.
  intros p args. split; [|apply trivial_none]. intros l H k i. rewrite (trivial_some _ _ _ _ H). rewrite Nat.sub_0_r.
  split; intros (v & c & K); exists v, c; [exact (proj2 K)|split; [lia|exact K]].
Qed.

(** Names: methods of the module they are specialised for have its path; other functions get a number of their own *)
Theorem C122_names :
  forall p rounds x l root,
    analyze p = Some x -> find_root (modules p) = Some root -> specialise p rounds x = Some l ->
    forall m e, In (m, e) l ->
      (exists i r names c mo d, snd m = (0, i) :: r /\ path p (module_id root) names i /\ find_module (modules p) i = Some mo /\ find_class (classes p) (module_class mo) = Some c /\
         In d (methods c) /\ method_function d = fst m /\ e = (String.concat "." (names ++ [method_name d]), method_private d)) \/
      ((forall i r names c mo d, snd m = (0, i) :: r -> path p (module_id root) names i -> find_module (modules p) i = Some mo -> find_class (classes p) (module_class mo) = Some c ->
          In d (methods c) -> method_function d <> fst m) /\
       exists f k t, find_function (functions p) (fst m) = Some f /\ e = (String.append (fst m) (String.append "$" t), function_private f) /\ read_decimal 0 t = k /\ k < List.length l).
Proof.
  intros p rounds x l root A R S m e I. destruct (analyze_spec _ _ A) as (root' & R' & T). rewrite R in R'. inj R'.
  unfold specialise in S. destruct (forallb _ _); [|discriminate]. cbn [guard obind] in S. destruct (monomorphizations p rounds) as [ms|]; [|discriminate]. cbn [obind] in S.
  destruct (public_once p ms); [|discriminate]. cbn [guard obind] in S. destruct (named_spec _ _ _ _ _ S) as [Lm N]. assert (Ll : List.length ms = List.length l) by (rewrite <- Lm; apply map_length).
  destruct (N _ _ I) as [X|(X & f & k & Lk & F & ->)].
  - left. destruct (export_of_in _ _ _ X) as (i & r & M & J). apply (t_exports _ _ _ _ _ _ T) in J. destruct J as [[]|(ns & mo & c & d & P & H1 & H2 & H3 & H4 & H5)].
    exists i, r, ns, c, mo, d. auto 10.
  - right. split.
    + intros i r ns c mo d M P H1 H2 H3 H4. apply (export_of_none _ _ _ _ (join (ns ++ [method_name d]), method_private d) X M).
      apply (t_exports _ _ _ _ _ _ T). right. exists ns, mo, c, d. auto 10.
    + exists f, k, (decimal (Datatypes.S k) k). split; [exact F|]. split; [reflexivity|]. split; [apply read_decimal_decimal; lia|]. rewrite <- Ll. exact (proj2 Lk).
Qed.

(** ** Examples *)
Definition cell (n : string) (c : string) : attr := {| attr_name := n; attr_type := Mod c; attr_private := true |}.
Definition datum_attr (n : string) : attr := {| attr_name := n; attr_type := Data; attr_private := false |}.
Definition at_ (n : string) (v : slot_value) : slot := {| slot_name := n; slot_value_of := v |}.
(** Two children of the same class, called one after the other; the parent keeps the last result *)
Definition small : program :=
  {| classes := [{| class_name := "Root"; attrs := [cell "a" "Child"; cell "b" "Child"; datum_attr "w"; datum_attr "unused"]; methods := [{| method_name := "forward"; method_function := "root_forward"; method_private := false |}] |};
                 {| class_name := "Child"; attrs := [datum_attr "x"]; methods := [{| method_name := "go"; method_function := "child_go"; method_private := true |}] |}];
     modules := [{| module_id := 1; module_class := "Child"; slots := [at_ "x" (Constant 10)] |};
                 {| module_id := 2; module_class := "Child"; slots := [at_ "x" (Constant 20)] |};
                 {| module_id := 0; module_class := "Root"; slots := [at_ "a" (Object 1); at_ "b" (Object 2); at_ "w" (Constant 30); at_ "unused" (Constant 40)] |}];
     functions := [{| function_name := "root_forward"; function_private := true; arguments := [(0, Mod "Root"); (1, Data)];
                      body_of := Block [GetAttr (2, Mod "Child") (0, Mod "Root") "a"; GetAttr (3, Mod "Child") (0, Mod "Root") "b";
                                        Call [(4, Data)] "child_go" [(2, Mod "Child"); (1, Data)]; Call [(5, Data)] "child_go" [(3, Mod "Child"); (4, Data)];
                                        Call [(6, Data)] "twice" [(5, Data)]; SetAttr (0, Mod "Root") "w" (6, Data)] [(6, Data)] |};
                   {| function_name := "child_go"; function_private := true; arguments := [(0, Mod "Child"); (1, Data)];
                      body_of := Block [GetAttr (2, Data) (0, Mod "Child") "x"; Other 0 [(3, Data)] [(2, Data); (1, Data)]] [(3, Data)] |};
                   {| function_name := "twice"; function_private := true; arguments := [(0, Data)]; body_of := Block [Other 0 [(1, Data)] [(0, Data); (0, Data)]] [(1, Data)] |}] |}.
Definition adding : world := {| datum := nat; memory := unit; other := fun _ l m => match l with [a; b] => Some ([a + b], m) | _ => None end; truth := fun d => Some (d =? 0); trips := Some; index := fun k => k |}.
Example C122_nonvacuous :
  exists x l r, analyze small = Some x /\ specialise small 10 x = Some l /\ globalize small 10 = Some r /\
    map tname (new_functions r) = ["forward"; "twice$0"; "a.go"; "b.go"] /\ map tprivate (new_functions r) = [false; true; true; true] /\
    map global_name (globals r) = ["a.x"; "b.x"; "w"] /\
    (exists s', run adding (functions small) 5 "root_forward" [Obj adding 0; Dat adding 1] (first_store adding small (fun c => c), tt) = Some ([Dat adding 62], s') /\ fst s' 0 "w" = Some (Dat adding 62)) /\
    (exists g', trun adding (new_functions r) 5 "forward" [1] (first_gstore adding (globals r) (fun c => c), tt) = Some ([62], g') /\ fst g' "w" = Some 62).
Proof. eexists _, _, _. split; [vm_compute; reflexivity|]. split; [vm_compute; reflexivity|]. split; [vm_compute; reflexivity|]. split; [reflexivity|]. split; [reflexivity|]. split; [reflexivity|]. split; eexists; split; reflexivity. Qed.
Example C122_well_named : well_named small.
Proof.
  split; [|split].
  - intros c a [<-|[<-|[]]] H; cbn in H; repeat (destruct H as [<-|H]; [intros K; cbn in K; repeat (destruct K as [K|K]; [discriminate|]); exact K|]); destruct H.
  - intros c [<-|[<-|[]]]; cbn; repeat (constructor; [intros K; cbn in K; repeat (destruct K as [K|K]; [discriminate|]); exact K|]); constructor.
  - intros m [<-|[<-|[<-|[]]]]; cbn; repeat (constructor; [intros K; cbn in K; repeat (destruct K as [K|K]; [discriminate|]); exact K|]); constructor.
Qed.

(** A private method that gets another module is specialised for each, and all of them get the name of the method: the result has several functions of one name, and calls reach the wrong one *)
Definition clash : program :=
  {| classes := [{| class_name := "Root"; attrs := [cell "c" "Child"; cell "p" "Part"; cell "q" "Part"]; methods := [{| method_name := "forward"; method_function := "root_forward"; method_private := false |}] |};
                 {| class_name := "Child"; attrs := []; methods := [{| method_name := "use"; method_function := "child_use"; method_private := true |}] |};
                 {| class_name := "Part"; attrs := [datum_attr "x"]; methods := [] |}];
     modules := [{| module_id := 1; module_class := "Child"; slots := [] |};
                 {| module_id := 2; module_class := "Part"; slots := [at_ "x" (Constant 10)] |};
                 {| module_id := 3; module_class := "Part"; slots := [at_ "x" (Constant 20)] |};
                 {| module_id := 0; module_class := "Root"; slots := [at_ "c" (Object 1); at_ "p" (Object 2); at_ "q" (Object 3)] |}];
     functions := [{| function_name := "root_forward"; function_private := true; arguments := [(0, Mod "Root")];
                      body_of := Block [GetAttr (1, Mod "Child") (0, Mod "Root") "c"; GetAttr (2, Mod "Part") (0, Mod "Root") "p"; GetAttr (3, Mod "Part") (0, Mod "Root") "q";
                                        Call [(4, Data)] "child_use" [(1, Mod "Child"); (2, Mod "Part")]; Call [(5, Data)] "child_use" [(1, Mod "Child"); (3, Mod "Part")]; Other 0 [(6, Data)] [(4, Data); (5, Data)]] [(6, Data)] |};
                   {| function_name := "child_use"; function_private := true; arguments := [(0, Mod "Child"); (1, Mod "Part")];
                      body_of := Block [GetAttr (2, Data) (1, Mod "Part") "x"] [(2, Data)] |}] |}.
Theorem C122_names_refuted :
  ~ (forall p rounds r, well_named p -> globalize p rounds = Some r -> NoDup (map tname (new_functions r))) /\
  exists r, globalize clash 10 = Some r /\ map tname (new_functions r) = ["forward"; "c.use"; "c.use"] /\
    (exists s', run adding (functions clash) 5 "root_forward" [Obj adding 0] (first_store adding clash (fun c => c), tt) = Some ([Dat adding 30], s')) /\
    (exists g', trun adding (new_functions r) 5 "forward" [] (first_gstore adding (globals r) (fun c => c), tt) = Some ([20], g')).
Proof.
  split.
  - intros H. assert (W : well_named clash).
    { split; [|split].
      - intros c a [<-|[<-|[<-|[]]]] K; cbn in K; repeat (destruct K as [<-|K]; [intros Q; cbn in Q; repeat (destruct Q as [Q|Q]; [discriminate|]); exact Q|]); destruct K.
      - intros c [<-|[<-|[<-|[]]]]; cbn; repeat (constructor; [intros K; cbn in K; repeat (destruct K as [K|K]; [discriminate|]); exact K|]); constructor.
      - intros m [<-|[<-|[<-|[<-|[]]]]]; cbn; repeat (constructor; [intros K; cbn in K; repeat (destruct K as [K|K]; [discriminate|]); exact K|]); constructor. }
    destruct (globalize clash 10) as [r|] eqn:G; [|discriminate]. specialize (H _ _ _ W G). vm_compute in G. inj G. cbn in H. inversion H as [|? ? _ H2]; subst. inversion H2 as [|? ? H3 _]; subst. apply H3. left. reflexivity.
  - eexists. split; [vm_compute; reflexivity|]. split; [reflexivity|]. split; eexists; reflexivity.
Qed.
(** A public method of a class with two instances that no function calls is dropped without an error *)
Definition dropped : program :=
  {| classes := [{| class_name := "Root"; attrs := [cell "a" "Child"; cell "b" "Child"]; methods := [] |};
                 {| class_name := "Child"; attrs := []; methods := [{| method_name := "go"; method_function := "child_go"; method_private := false |}] |}];
     modules := [{| module_id := 1; module_class := "Child"; slots := [] |}; {| module_id := 2; module_class := "Child"; slots := [] |};
                 {| module_id := 0; module_class := "Root"; slots := [at_ "a" (Object 1); at_ "b" (Object 2)] |}];
     functions := [{| function_name := "child_go"; function_private := true; arguments := [(0, Mod "Child"); (1, Data)]; body_of := Block [] [(1, Data)] |}] |}.
Theorem C122_exports_refuted :
  ~ (forall p rounds r root i names mo c d, globalize p rounds = Some r -> find_root (modules p) = Some root -> path p (module_id root) names i ->
       find_module (modules p) i = Some mo -> find_class (classes p) (module_class mo) = Some c -> In d (methods c) -> method_private d = false ->
       In (String.concat "." (names ++ [method_name d])) (map tname (new_functions r))).
Proof.
  intros H. destruct (globalize dropped 10) as [r|] eqn:G; [|discriminate]. vm_compute in G.
  refine (match H dropped 10 {| globals := []; new_functions := [] |} _ 1 ["a"] _ _ {| method_name := "go"; method_function := "child_go"; method_private := false |} eq_refl eq_refl _ eq_refl eq_refl (or_introl eq_refl) eq_refl return False with end).
  refine (path_step dropped 0 [] 0 _ _ 0 _ _ 1 (path_here _ _) eq_refl eq_refl eq_refl eq_refl _ eq_refl). exists "Child". reflexivity.
Qed.
(** Two paths to one module are refused *)
Theorem C122_shared :
  forall p rounds root i n n', find_root (modules p) = Some root -> path p (module_id root) n i -> path p (module_id root) n' i -> n <> n' -> globalize p rounds = None.
Proof.
  intros p rounds root i n n' R P P' D. unfold globalize. destruct (analyze p) as [x|] eqn:A; [|reflexivity]. destruct (analyze_spec _ _ A) as (root' & R' & T). rewrite R in R'. inj R'.
  exfalso. apply D. exact (t_once _ _ _ _ _ _ T _ _ _ P P').
Qed.
Print Assumptions C122_meaning.
Print Assumptions C122_initial.
Print Assumptions C122_slots.
Print Assumptions C122_accesses.
Print Assumptions C122_root.
Print Assumptions C122_specialisations.
Print Assumptions C122_accepted.
Print Assumptions C122_seeds.
Print Assumptions C122_names.
Print Assumptions C122_names_refuted.
Print Assumptions C122_exports_refuted.
Print Assumptions C122_shared.
