(** C120: the objects of a TorchScript program are imported each once, with everything inside. *)
From Coq Require Import ZArith Bool String Lia List.
From Verif Require Import Prelude DtypeModel JitTypesModel JitTypesSpec JitTypesProps IValueModel IValueSpec IValueProofs.
From Verif Require TypesModel.
Import ListNotations.
Open Scope string_scope.
Open Scope list_scope.
Open Scope nat_scope.

Lemma f2_length {A B} (R : A -> B -> Prop) l m : Forall2 R l m -> List.length l = List.length m.
Proof. induction 1; cbn; congruence. Qed.
Section Props.
Context {func : Type} (opts : options) (import_function : nat -> option func) (get_functions : nat -> list nat) (exported : class_type -> list bool * list bool).
Notation import_ivalue := (import_ivalue opts import_function get_functions exported).
Notation inv := (inv opts import_function get_functions exported).

Lemma closed root x y : part root x -> In y (children x) -> part root y.
Proof. intros P K. apply (part_trans root x y P). apply (part_child x y y K). constructor. Qed.
Lemma inv_fresh U : inv U None (@fresh_state func).
Proof.
  constructor; cbn; try solve [intros; contradiction]; try constructor; try reflexivity; try discriminate. intros [|i] o E; discriminate.
Qed.
Lemma run root v ops : coherent root -> import_ivalue root = Ok (v, ops) -> exists st, IValueModel.ops st = ops /\ inv (part root) None st /\ known st v root.
Proof.
  intros [C1 C2 C3] E. unfold IValueModel.import_ivalue in E. destruct (import_value _ _ _ _ root fresh_state) as [[u st]|] eqn:E1; [|discriminate]. cbn in E. injection E as <- <-.
  destruct (all_imports opts import_function get_functions exported (part root) (closed root) C1 C2 root (part_self root) _ _ _ (inv_fresh _) E1) as (I & _ & K & _). exists st. auto.
Qed.
Lemma all_known root (st : @state func) v : inv (part root) None st -> known st v root -> forall x, part root x -> exists u, known st u x.
Proof. intros I K x P. apply (parts_known opts import_function get_functions exported (part root) None st root x I P). eauto. Qed.

(** The values stand for the objects: the operation of a value is that of its object, with operands for what is inside; an object has one value and a value one object, but for the sign of zero and NaN. *)
Theorem C120_meaning : forall root v ops, coherent root -> import_ivalue root = Ok (v, ops) ->
  exists R : nat -> ivalue -> Prop, R v root /\
    (forall x, part root x -> exists u, R u x) /\
    (forall u x, R u x -> part root x /\ denotes opts ops R u x) /\
    (forall u u' x, R u x -> R u' x -> x <> VDouble NaN -> u = u') /\
    (forall u x y, R u x -> R u y -> stands x y).
Proof.
  intros root v ops C E. destruct (run root v ops C E) as (st & <- & I & K). exists (fun u x => known st u x /\ part root x).
  split; [split; [exact K|constructor]|]. split; [|split; [|split]].
  - intros x P. destruct (all_known root st v I K x P) as [u L]. exists u. auto.
  - intros u x [(y & M & S) P]. split; [exact P|]. apply (denotes_within opts _ (known st)).
    + apply (stands_denotes opts _ _ _ x y S). exact (i_built _ _ _ _ _ _ _ I _ _ M).
    + intros w z J L. split; [exact L|]. now apply (closed root x).
  - intros u u' x [(y & M & S) P] [(y' & M' & S') _] N. apply (i_apart _ _ _ _ _ _ _ I y u y' u' M M'). rewrite (stands_same y' x S' y), same_sym, (stands_same y x S x). now apply same_self.
  - intros u x y [(z & M & S) _] [(z' & M' & S') _]. assert (z = z').
    { pose proof (i_values _ _ _ _ _ _ _ I) as ND. clear - ND M M'. induction (value_map st) as [|[a b] l IH]; [destruct M|]. cbn in ND. inversion ND as [|? ? N ND']; subst. destruct M as [M|M], M' as [M'|M']; try congruence.
      - injection M as -> ->. contradiction N. apply in_map_iff. exists (z', u). auto.
      - injection M' as -> ->. contradiction N. apply in_map_iff. exists (z, u). auto.
      - auto. }
    subst z'. unfold stands. destruct S as [->|(a & b & -> & -> & A & B)]; destruct S' as [<-|(a' & b' & X & -> & A' & B')]; auto.
    + right. exists a', b'. auto.
    + right. exists b, a. auto.
    + injection X as <-. right. exists b, b'. auto.
Qed.
(** Operands come before. *)
Theorem C120_operands : forall root v ops i o, coherent root -> import_ivalue root = Ok (v, ops) -> nth_error ops i = Some o -> Forall (fun w => w < i) (operands o).
Proof. intros root v ops i o C E K. destruct (run root v ops C E) as (st & <- & I & _). exact (i_ssa _ _ _ _ _ _ _ I i o K). Qed.
(** What can be imported *)
Theorem C120_success : forall root, coherent root ->
  (exists v ops, import_ivalue root = Ok (v, ops)) <->
  (forall x, part root x -> fine opts exported import_function get_functions x) /\
  (forall i t i' t', part root (VTensor i t) -> part root (VTensor i' t') -> storage t = storage t' -> i = i') /\
  (forall i c cu l i' c' cu' l', part root (VModule i c cu l) -> part root (VModule i' c' cu' l') -> cu = cu').
Proof.
  intros root C. split.
  - intros (v & ops & E). destruct (run root v ops C E) as (st & <- & I & K). pose proof (all_known root st v I K) as AK.
    assert (KEY : forall x, part root x -> (forall d, x <> VDouble d) -> exists u, In (x, u) (value_map st)).
    { intros x P N. destruct (AK x P) as (u & y & M & [->|(a & b & _ & -> & _)]); [eauto|now contradiction (N b)]. }
    split; [|split].
    + intros x P. destruct x as [| | | | |i e m|i k e m|i m|i t|i c cu m|i w b|i]; try exact Logic.I; (destruct (KEY _ P) as [u M]; [discriminate|]; pose proof (i_built _ _ _ _ _ _ _ I _ _ M) as D; cbn [denotes fine] in *).
      * destruct D as (t & vs & _ & D & _). eauto.
      * destruct D as (t & ks & vs & _ & D & _). eauto.
      * destruct D as (N & r & S & D). split; [exact N|]. split; [congruence|]. destruct (quantized t) as [[s z|]|]; [discriminate|contradiction|discriminate].
      * destruct D as (n & vs & N & L & _ & F). split; [rewrite <- (f2_length _ _ _ F); exact L|]. destruct (i_unit _ _ _ _ _ _ _ I _ _ _ _ _ M) as [CU CT]. split.
        -- assert (CI : In (c_id c) (class_ids (ops st))) by (rewrite (i_classes _ _ _ _ _ _ _ I); now apply -> in_rev). unfold class_ids in CI. apply in_flat_map in CI as (o & O & J). destruct o; cbn in J; try contradiction. destruct J as [->|[]].
           destruct (i_described _ _ _ _ _ _ _ I _ _ _ _ O) as (c' & (i' & cu' & l' & U') & Q & CD). rewrite (one_class root C _ _ _ _ _ _ _ _ U' P Q) in CD. eauto.
        -- intros f J. pose proof (i_functions _ _ _ _ _ _ _ I) as FN. rewrite CU in FN. intros Z. assert (In (import_function f) (map Some (functions_of (ops st)))) as X by (rewrite FN; now apply in_map). rewrite Z in X. apply in_map_iff in X as (g & X & _). discriminate.
      * contradiction.
    + intros i t i' t' P P' S. destruct (KEY _ P) as [u M]; [discriminate|]. destruct (KEY _ P') as [u' M']; [discriminate|]. exact (i_separate _ _ _ _ _ _ _ I _ _ _ _ _ _ M M' S).
    + intros i c cu l i' c' cu' l' P P'. destruct (KEY _ P) as [u M]; [discriminate|]. destruct (KEY _ P') as [u' M']; [discriminate|]. apply (i_unit _ _ _ _ _ _ _ I) in M as [M _], M' as [M' _]. congruence.
  - intros (A & B & D). destruct C as [C1 C2 C3]. destruct (all_complete opts import_function get_functions exported (part root) (closed root) C1 C2 A B D root (part_self root) fresh_state (inv_fresh _)) as (v & st & E). exists v, (ops st). unfold IValueModel.import_ivalue. rewrite E. reflexivity.
Qed.
(** The complaint about shared storage *)
Theorem C120_shared_storage : forall root p, coherent root -> import_ivalue root = Err (SharedStorage p) -> exists i t i' t', part root (VTensor i t) /\ part root (VTensor i' t') /\ storage t = storage t' /\ i <> i'.
Proof.
  intros root p [C1 C2 C3] E. unfold IValueModel.import_ivalue in E. destruct (import_value _ _ _ _ root fresh_state) as [[u st]|f] eqn:E1; [discriminate|]. cbn in E. injection E as ->.
  exact (proj1 (all_honest opts import_function get_functions exported (part root) (closed root) C1 C2 root (part_self root) _ _ (inv_fresh _) E1)).
Qed.
(** Its path leads from the root to a tensor. *)
Theorem C120_shared_path : forall root path r, coherent root -> import_ivalue root = Err (SharedStorage (Some (path, r))) -> exists i t, at_path root path (VTensor i t).
Proof.
  intros root path r [C1 C2 C3] E. unfold IValueModel.import_ivalue in E. destruct (import_value _ _ _ _ root fresh_state) as [[u st]|f] eqn:E1; [discriminate|]. cbn in E. injection E as ->.
  destruct (proj2 (all_honest opts import_function get_functions exported (part root) (closed root) C1 C2 root (part_self root) _ _ (inv_fresh _) E1) path r eq_refl) as (rest & i & t & -> & P). exists i, t. exact P.
Qed.
(** Each class once, as described; the functions of the compilation unit once, in order *)
Theorem C120_classes : forall root v ops, coherent root -> import_ivalue root = Ok (v, ops) ->
  NoDup (class_ids ops) /\ (forall id, In id (class_ids ops) <-> exists i c cu l, part root (VModule i c cu l) /\ c_id c = id) /\
  (forall id n a m, In (OClass id n a m) ops -> exists i c cu l, part root (VModule i c cu l) /\ c_id c = id /\ class_described opts exported c n a m).
Proof.
  intros root v ops C E. destruct (run root v ops C E) as (st & <- & I & K). split; [rewrite (i_classes _ _ _ _ _ _ _ I); apply NoDup_rev; exact (i_distinct _ _ _ _ _ _ _ I)|].
  assert (D : forall id n a m, In (OClass id n a m) (ops st) -> exists i c cu l, part root (VModule i c cu l) /\ c_id c = id /\ class_described opts exported c n a m).
  { intros id n a m J. destruct (i_described _ _ _ _ _ _ _ I _ _ _ _ J) as (c & (i & cu & l & U) & Q & CD). exists i, c, cu, l. auto. }
  split; [|exact D]. intros id. split.
  - intros J. unfold class_ids in J. apply in_flat_map in J as (o & O & J). destruct o; cbn in J; try contradiction. destruct J as [->|[]]. destruct (D _ _ _ _ O) as (i & c & cu & l & P & Q & _). exists i, c, cu, l. auto.
  - intros (i & c & cu & l & P & <-). destruct (all_known root st v I K _ P) as (u & y & M & [->|(a & b & _ & X & _)]); [|discriminate]. destruct (i_unit _ _ _ _ _ _ _ I _ _ _ _ _ M) as [_ CT]. rewrite (i_classes _ _ _ _ _ _ _ I). now apply -> in_rev.
Qed.
Theorem C120_functions : forall root v ops, coherent root -> import_ivalue root = Ok (v, ops) ->
  (forall i c cu l, part root (VModule i c cu l) -> map Some (functions_of ops) = map import_function (get_functions cu)) /\
  ((forall i c cu l, ~ part root (VModule i c cu l)) -> functions_of ops = []).
Proof.
  intros root v ops C E. destruct (run root v ops C E) as (st & <- & I & K). pose proof (i_functions _ _ _ _ _ _ _ I) as FN. split.
  - intros i c cu l P. destruct (all_known root st v I K _ P) as (u & y & M & [->|(a & b & _ & X & _)]); [|discriminate]. destruct (i_unit _ _ _ _ _ _ _ I _ _ _ _ _ M) as [CU _]. now rewrite CU in FN.
  - intros N. destruct (compilation_unit st) as [cu|] eqn:CU; [|exact FN]. destruct (i_module _ _ _ _ _ _ _ I _ CU) as (i & c & l & P). now apply N in P.
Qed.
End Props.

(** Negative zero becomes zero. *)
Definition plain_options : options := {| assume_value_semantics := true; ignore_shapes_and_dtypes := false |}.
Notation import_example := (import_ivalue plain_options (fun n => Some n) (fun cu => [7; 8]) (fun c => ([true; false; true], [true]))).
Theorem C120_zero_refuted : exists v ops, import_example (VTuple 1 [VDouble PosZero; VDouble NegZero]) = Ok (v, ops) /\ ~ In (OFloat NegZero) ops.
Proof. eexists. eexists. split; [reflexivity|]. cbn. intros [K|[K|[]]]; discriminate. Qed.
(** The complaint about shared storage has no path, or a wrong root, if a module was imported before. *)
Definition a_tensor (s : nat) : tensor_data := {| storage := s; scalar := Float; dims := [2%Z; 3%Z]; contents := 5; quantized := None |}.
Definition inner_class : class_type := {| c_id := 1; c_name := Some "Inner"; c_attributes := []; c_methods := [] |}.
Definition weighted_class : class_type := {| c_id := 3; c_name := Some "Weighted"; c_attributes := [("weight", JTensor None None)]; c_methods := [] |}.
Definition outer_class : class_type := {| c_id := 2; c_name := Some "Outer"; c_attributes := [("w", JTensor None None); ("inner", JClass (Some "Inner") false); ("shared", JTensor None None)]; c_methods := [("forward", "Outer.forward")] |}.
Theorem C120_path_refuted :
  import_example (VModule 1 outer_class 0 [VTensor 10 (a_tensor 3); VNone; VTensor 11 (a_tensor 3)]) = Err (SharedStorage (Some (["shared"], "Outer"))) /\
  import_example (VModule 1 outer_class 0 [VTensor 10 (a_tensor 3); VNone; VModule 2 weighted_class 0 [VTensor 11 (a_tensor 3)]]) = Err (SharedStorage (Some (["shared"; "weight"], "Outer"))) /\
  import_example (VModule 1 outer_class 0 [VTensor 10 (a_tensor 3); VModule 2 inner_class 0 []; VTensor 11 (a_tensor 3)]) = Err (SharedStorage None) /\
  import_example (VModule 1 outer_class 0 [VTensor 10 (a_tensor 3); VModule 2 inner_class 0 []; VModule 3 weighted_class 0 [VTensor 11 (a_tensor 3)]]) = Err (SharedStorage (Some (["shared"; "weight"], "Weighted"))).
Proof. split; [|split; [|split]]; vm_compute; reflexivity. Qed.
(** An object with all kinds of parts, shared objects, two classes *)
Definition q_tensor : tensor_data := {| storage := 4; scalar := QInt8; dims := [2%Z]; contents := 6; quantized := Some (PerTensorAffine (Other 3) 1%Z) |}.
Definition a_list : ivalue := VList 5 JInt [VInt 1; VInt 2; VInt 1].
Example C120_nonvacuous :
  import_example (VModule 1 outer_class 0 [VTensor 10 (a_tensor 3); VModule 2 inner_class 0 []; VTuple 6 [a_list; VDict 7 JString JInt [(VString "k", VInt 1)]; a_list; VTensor 10 (a_tensor 3); VLinearParams 8 (VTensor 12 q_tensor) (Some VNone)]]) =
  Ok (17, [OFunc 7; OFunc 8; OClass 2 "Outer" [("w", TypesModel.Tens (tensor true None None), false); ("inner", TypesModel.Module "Inner", true); ("shared", TypesModel.Tens (tensor true None None), false)] [("forward", "Outer.forward", false)];
     OLiteral true [2%Z; 3%Z] (FloatT F32) 5; OClass 1 "Inner" [] []; OModule "Inner" []; OInt 1; OInt 2; OList (TypesModel.List_ (TypesModel.Atom TypesModel.IntA)) [6; 7; 6]; OStr "k";
     ODict (TypesModel.Dict (TypesModel.Atom TypesModel.StringA) (TypesModel.Atom TypesModel.IntA)) [9] [6];
     OLiteral true [2%Z] (IntT 8 Signed) 6; OFloat (Other 3); OPerTensorAffine (tensor true (Some [2%Z]) (Some QInt8T)) 11 12 6; ONone; OLinear 13 (Some 14); OTuple [8; 10; 8; 3; 15]; OModule "Outer" [("w", 3); ("inner", 5); ("shared", 16)]]).
Proof. vm_compute. reflexivity. Qed.

(** Objects with shared parts are coherent. *)
Definition pair_of_lists : ivalue := VTuple 6 [a_list; VTensor 10 (a_tensor 3); a_list].
Example C120_coherent_nonvacuous : coherent pair_of_lists.
Proof.
  assert (P : forall y, part pair_of_lists y -> In y [pair_of_lists; a_list; VInt 1; VInt 2; VTensor 10 (a_tensor 3)]).
  { assert (L : forall y, part a_list y -> In y [a_list; VInt 1; VInt 2]).
    { intros y K. inversion K as [|? c ? J M]; subst; [now left|]. cbn in J. destruct J as [<-|[<-|[<-|[]]]]; (inversion M as [|? c ? J' M']; subst; [cbn; auto|destruct J']). }
    assert (T : forall y, part (VTensor 10 (a_tensor 3)) y -> y = VTensor 10 (a_tensor 3)) by (intros y K; inversion K as [|? c ? J M]; subst; [reflexivity|destruct J]).
    intros y K. inversion K as [|? c ? J M]; subst; [now left|]. destruct J as [<-|[<-|[<-|[]]]]; [apply L in M|apply T in M; subst; cbn; auto 6|apply L in M]; cbn in M; cbn; tauto. }
  split.
  - intros x y i X Y. apply P in X, Y. cbn in X, Y. decompose [or] X; decompose [or] Y; subst; try contradiction; cbn; intros E E'; congruence || (exfalso; congruence).
  - intros i t t' X Y. apply P in X, Y. cbn in X, Y. decompose [or] X; decompose [or] Y; try discriminate; try contradiction. congruence.
  - intros i c cu l i' c' cu' l' X. apply P in X. cbn in X. decompose [or] X; try discriminate; contradiction.
Qed.

Print Assumptions C120_meaning.
Print Assumptions C120_operands.
Print Assumptions C120_success.
Print Assumptions C120_shared_storage.
Print Assumptions C120_shared_path.
Print Assumptions C120_classes.
Print Assumptions C120_functions.
Print Assumptions C120_zero_refuted.
Print Assumptions C120_path_refuted.
