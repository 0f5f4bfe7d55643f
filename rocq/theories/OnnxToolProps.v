(** C128: the ONNX import tool gives the shape-inferred model of its input, and works in its own directory. *)
From Coq Require Import Bool ZArith Lia String List.
From Verif Require Import Prelude OnnxToolModel.
Import ListNotations.
Open Scope string_scope.
Open Scope list_scope.

(** [p] is [d] or below it *)
Definition under (d p : path) : Prop := exists r, p = d ++ r.
Lemma within_under : forall d p, within d p = true <-> under d p.
Proof.
  induction d as [|x d IH]; intros p; [split; [exists p; reflexivity|reflexivity]|]. destruct p as [|y p]; cbn [within]; [split; [discriminate|intros (r & H); discriminate]|].
  rewrite andb_true_iff, String.eqb_eq, IH. split; [intros (-> & r & ->); exists r; reflexivity|intros (r & [= -> ->]); split; [reflexivity|exists r; reflexivity]].
Qed.
Lemma path_eqb_eq a b : path_eqb a b = true <-> a = b.
Proof.
  unfold path_eqb. rewrite andb_true_iff, !within_under. split; [|intros ->; split; exists []; rewrite app_nil_r; reflexivity].
  intros ((r & ->) & (s & H)). rewrite <- app_assoc in H. rewrite <- (app_nil_r a) in H at 1. apply app_inv_head in H. symmetry in H. apply app_eq_nil in H. destruct H as [-> _]. rewrite app_nil_r. reflexivity.
Qed.

Section Theorems.
Context {C R : Type}.
Context (load_only : fs C -> path -> option (model R)) (load_external : fs C -> model R -> path -> option (model R)) (convert : model R -> Z -> option (model R)).
Context (check : model R -> option exn) (infer : bool -> model R -> model R + exn) (save : fs C -> model R -> path -> option (fs C)) (infer_path : bool -> fs C -> path -> path -> option (fs C)).
Notation tool := (load_onnx_model load_only load_external convert check infer save infer_path).
(** saving and inferring write below the directory of the file that they make *)
Hypothesis save_local : forall f m d x f' p, save f m (d ++ [x]) = Some f' -> ~ under d p -> f' p = f p.
Hypothesis infer_local : forall dp f src d x f' p, infer_path dp f src (d ++ [x]) = Some f' -> ~ under d p -> f' p = f p.
Lemma rmtree_out (d p : path) (f : fs C) : ~ under d p -> rmtree d f p = f p.
Proof. intros N. unfold rmtree. destruct (f d) as [[|c]|]; try reflexivity. destruct (within d p) eqn:W; [apply within_under in W; contradiction|reflexivity]. Qed.
Lemma mkdir_out (d p : path) (f f' : fs C) : mkdir d f = inl f' -> ~ under d p -> f' p = f p.
Proof. unfold mkdir. intros H N. destruct (f d) as [[|c]|]; try discriminate; [injection H as <-; reflexivity|]. destruct (f (parent d)) as [[|c]|]; try discriminate. injection H as <-. destruct (path_eqb d p) eqn:E; [apply path_eqb_eq in E; subst; exfalso; apply N; exists []; rewrite app_nil_r; reflexivity|reflexivity]. Qed.

(** ** Nothing changes outside the temporary directory, whatever happens *)
Theorem C128_frame a f0 f r p : tool a f0 = (f, r) -> ~ under (temp_of a) p -> f p = f0 p.
Proof.
  unfold load_onnx_model. intros H N. set (f1 := rmtree (temp_of a) f0) in *. assert (E1 : f1 p = f0 p) by (apply rmtree_out; exact N). destruct (mkdir (temp_of a) f1) as [f2|e] eqn:K; [|injection H as <- _; exact E1]. assert (E2 : f2 p = f0 p) by (rewrite (mkdir_out _ _ _ _ K N); exact E1).
  destruct (load_raw load_only load_external a f2) as [raw|]; [|injection H as <- _; exact E2]. destruct (prepare convert a raw) as [[m modified]|]; [|injection H as <- _; exact E2]. destruct (in_memory check infer (data_prop a) m); [injection H as <- _; exact E2|injection H as <- _; exact E2|].
  destruct (if modified then save f2 m (temp_of a ++ ["raw.onnx"]) else Some f2) as [f3|] eqn:S3; [|injection H as <- _; exact E2].
  assert (E3 : f3 p = f0 p) by (destruct modified; [rewrite (save_local _ _ _ _ _ _ S3 N); exact E2|injection S3 as <-; exact E2]).
  destruct (infer_path _ _ _ _) as [f4|] eqn:I4; [|injection H as <- _; exact E3]. assert (E4 : f4 p = f0 p) by (rewrite (infer_local _ _ _ _ _ _ _ I4 N); exact E3).
  match type of H with context [match ?x with None => _ | Some _ => _ end] => destruct x end; [|injection H as <- _; exact E4]. injection H as <- _. destruct (keep_temps a); [exact E4|rewrite rmtree_out by exact N; exact E4].
Qed.
(** it starts exactly when its directory is no file and lies in a directory; then its directory is there and empty, whatever was in it *)
Theorem C128_starts a (f0 : fs C) :
  ((exists f2, mkdir (temp_of a) (rmtree (temp_of a) f0) = inl f2) <-> (forall c, f0 (temp_of a) <> Some (File c)) /\ f0 (or_else (temp_dir a) (parent (input_file a))) = Some Directory) /\
  forall f2, mkdir (temp_of a) (rmtree (temp_of a) f0) = inl f2 -> f2 (temp_of a) = Some Directory /\ (f0 (temp_of a) = Some Directory -> forall p, under (temp_of a) p -> p <> temp_of a -> f2 p = None).
Proof.
  assert (Pt : parent (temp_of a) = or_else (temp_dir a) (parent (input_file a))) by (unfold temp_of, parent at 1, input_dir; apply removelast_last).
  assert (Np : ~ under (temp_of a) (or_else (temp_dir a) (parent (input_file a)))). { intros (r & H). unfold temp_of, input_dir in H. apply (f_equal (@List.length string)) in H. rewrite !app_length in H. cbn in H. lia. }
  assert (Ep : rmtree (temp_of a) f0 (parent (temp_of a)) = f0 (or_else (temp_dir a) (parent (input_file a)))) by (rewrite Pt; apply rmtree_out; exact Np).
  assert (Et : rmtree (temp_of a) f0 (temp_of a) = match f0 (temp_of a) with Some (File c) => Some (File c) | _ => None end). { unfold rmtree. destruct (f0 (temp_of a)) as [[|c]|] eqn:Q; [|exact Q|exact Q]. rewrite (proj2 (within_under _ _)); [reflexivity|]. exists []. rewrite app_nil_r. reflexivity. }
  unfold mkdir. rewrite Et, Ep. split.
  - destruct (f0 (temp_of a)) as [[|c]|]; destruct (f0 (or_else _ _)) as [[|d]|]; split; try (intros (f2 & H); discriminate); try (intros (H1 & H2); try discriminate; exfalso; eapply H1; reflexivity); try (intros _; split; [discriminate|reflexivity]); intros _; eexists; reflexivity.
  - intros f2 H. destruct (f0 (temp_of a)) as [[|c]|] eqn:Q; try discriminate; destruct (f0 (or_else _ _)) as [[|d]|]; try discriminate; injection H as <-; rewrite (proj2 (path_eqb_eq _ _) eq_refl); (split; [reflexivity|]); [|discriminate].
    intros _ p U N. destruct (path_eqb (temp_of a) p) eqn:W; [apply path_eqb_eq in W; congruence|]. unfold rmtree. rewrite Q, (proj2 (within_under _ _) U). reflexivity.
Qed.

(** ** The result *)
(** file [p] with external data in [d] holds model [m] *)
Definition holds (f : fs C) (p d : path) (m : model R) : Prop := exists m0, load_only f p = Some m0 /\ load_external f m0 d = Some m.
Definition cleared (m m' : model R) : Prop := others m' = others m /\ Forall2 (fun n n' => exists d op subs, n = Node d op subs /\ n' = Node "" op subs) (nodes m) (nodes m').
Definition prepared (a : arguments) (m m' : model R) : Prop := exists m1, ((opset_version a = None \/ opset_version a = Some 0%Z) /\ m1 = m \/ exists v, opset_version a = Some v /\ v <> 0%Z /\ convert m v = Some m1) /\ (if clear_domain a then cleared m1 m' else m' = m1).
Lemma prepare_prepared a m m' b : prepare convert a m = Some (m', b) -> prepared a m m' /\ (b = false -> m' = m).
Proof.
  unfold prepare. intros H. assert (Q : exists m1 c, ((opset_version a = None \/ opset_version a = Some 0%Z) /\ m1 = m \/ exists v, opset_version a = Some v /\ v <> 0%Z /\ convert m v = Some m1) /\ (c = false -> m1 = m) /\ (if clear_domain a then Some ({| nodes := map clear_node (nodes m1); others := others m1 |}, true) else Some (m1, c)) = Some (m', b)).
  { destruct (opset_version a) as [[|v|v]|]; cbn [obind] in H.
    - exists m, false. split; [left; auto|split; [reflexivity|exact H]].
    - destruct (convert m (Z.pos v)) as [m1|] eqn:K; [|discriminate]. exists m1, true. split; [right; exists (Z.pos v); repeat split; [discriminate|exact K]|split; [discriminate|exact H]].
    - destruct (convert m (Z.neg v)) as [m1|] eqn:K; [|discriminate]. exists m1, true. split; [right; exists (Z.neg v); repeat split; [discriminate|exact K]|split; [discriminate|exact H]].
    - exists m, false. split; [left; auto|split; [reflexivity|exact H]]. }
  destruct Q as (m1 & c & Q1 & Q2 & Q3). unfold prepared. destruct (clear_domain a).
  - injection Q3 as <- <-. split; [|discriminate]. exists m1. split; [exact Q1|]. split; [reflexivity|]. cbn [nodes]. clear. induction (nodes m1) as [|[d op subs] l IH]; cbn [map clear_node]; [constructor|constructor]; [exists d, op, subs; auto|exact IH].
  - injection Q3 as <- <-. split; [exists m1; split; [exact Q1|reflexivity]|exact Q2].
Qed.
(** the functions that work on files agree with [inferred], the wanted shape inference *)
Context (inferred : bool -> model R -> model R).
Hypothesis infer_ok : forall dp m r, infer dp m = inl r -> r = inferred dp m.
Hypothesis save_ok : forall f m p f', save f m p = Some f' -> holds f' p (parent p) m.
Hypothesis infer_path_ok : forall dp f src d dst f' m, holds f src d m -> infer_path dp f src dst = Some f' -> holds f' dst d (inferred dp m).
Lemma parent_app (p : path) x : parent (p ++ [x]) = p.
Proof. unfold parent. apply removelast_last. Qed.
Theorem C128_result a f0 f r : tool a f0 = (f, inl r) ->
  exists f2 raw m, mkdir (temp_of a) (rmtree (temp_of a) f0) = inl f2 /\ holds f2 (input_file a) (or_else (data_dir a) (parent (input_file a))) raw /\ prepared a raw m /\ r = inferred (data_prop a) m.
Proof.
  unfold load_onnx_model. intros H. destruct (mkdir _ _) as [f2|e]; [|discriminate]. exists f2. unfold load_raw in H. destruct (load_only f2 (input_file a)) as [m0|] eqn:L0; [|discriminate]. cbn [obind] in H. destruct (load_external f2 m0 (or_else (data_dir a) (input_dir a))) as [raw|] eqn:L1; [|discriminate].
  assert (Hr : holds f2 (input_file a) (or_else (data_dir a) (parent (input_file a))) raw) by (exists m0; auto).
  destruct (prepare convert a raw) as [[m modified]|] eqn:Pr; [|discriminate]. destruct (prepare_prepared _ _ _ _ Pr) as [P1 P2]. exists raw, m. repeat (split; [first [reflexivity|exact Hr|exact P1]|]).
  unfold in_memory in H. destruct (check m) as [[]|]; try discriminate.
  2: destruct (infer (data_prop a) m) as [r1|[]] eqn:I1; try discriminate; [injection H as _ <-; exact (infer_ok _ _ _ I1)|].
  all: destruct modified; cbv beta iota zeta in H.
  all: try (rewrite (P2 eq_refl) in *).
  all: match type of H with
       | context [save ?x ?y ?z] => destruct (save x y z) as [f3|] eqn:S3; [|discriminate]; cbv beta iota zeta in H
       | _ => idtac
       end.
  all: match type of H with context [infer_path ?x ?y ?z ?w] => destruct (infer_path x y z w) as [f4|] eqn:I4; [|discriminate]; cbv beta iota zeta in H end.
  all: match type of H with context [load_only ?x ?y] => destruct (load_only x y) as [m2|] eqn:L2; [|discriminate] end; cbn [obind] in H.
  all: match type of H with context [load_external ?x ?y ?z] => destruct (load_external x y z) as [m3|] eqn:L3; [|discriminate] end; injection H as _ <-.
  1, 3: pose proof (save_ok _ _ _ _ S3) as Q; rewrite parent_app in Q; destruct (infer_path_ok _ _ _ _ _ _ _ Q I4) as (m5 & A1 & A2); congruence.
  all: destruct (infer_path_ok _ _ _ _ _ _ _ Hr I4) as (m5 & A1 & A2); unfold input_dir in *; congruence.
Qed.

(** ** When it succeeds, and what is left of its directory *)
Theorem C128_succeeds_in_memory a f0 f2 raw m b : mkdir (temp_of a) (rmtree (temp_of a) f0) = inl f2 -> load_raw load_only load_external a f2 = Some raw -> prepare convert a raw = Some (m, b) -> check m = None ->
  (forall r, infer (data_prop a) m = inl r -> tool a f0 = (f2, inl r)) /\ (forall e, infer (data_prop a) m = inr e -> e <> ValueError -> tool a f0 = (f2, inr e)).
Proof. intros K L P Ch. unfold load_onnx_model, in_memory. rewrite K, L, P, Ch. split; [intros r ->; reflexivity|intros e -> N; destruct e; try reflexivity; congruence]. Qed.
(** an exception of the checker other than ValueError is not hidden *)
Theorem C128_rejected a f0 f2 raw m b e : mkdir (temp_of a) (rmtree (temp_of a) f0) = inl f2 -> load_raw load_only load_external a f2 = Some raw -> prepare convert a raw = Some (m, b) -> check m = Some e -> e <> ValueError -> tool a f0 = (f2, inr e).
Proof. intros K L P Ch N. unfold load_onnx_model, in_memory. rewrite K, L, P, Ch. destruct e; try reflexivity. congruence. Qed.
(** a model that is too big in memory goes through files, and the temporary directory goes unless it is kept *)
Theorem C128_too_big a f0 f2 raw m b f3 f4 m1 r : mkdir (temp_of a) (rmtree (temp_of a) f0) = inl f2 -> load_raw load_only load_external a f2 = Some raw -> prepare convert a raw = Some (m, b) ->
  (check m = Some ValueError \/ check m = None /\ infer (data_prop a) m = inr ValueError) ->
  (if b then save f2 m (temp_of a ++ ["raw.onnx"]) = Some f3 else f3 = f2) ->
  infer_path (data_prop a) f3 (if b then temp_of a ++ ["raw.onnx"] else input_file a) (temp_of a ++ ["inferred.onnx"]) = Some f4 ->
  load_only f4 (temp_of a ++ ["inferred.onnx"]) = Some m1 -> load_external f4 m1 (if b then temp_of a else or_else (data_dir a) (parent (input_file a))) = Some r ->
  tool a f0 = (if keep_temps a then f4 else rmtree (temp_of a) f4, inl r).
Proof.
  intros K L P Ch S3 I4 L1 L2. unfold load_onnx_model, in_memory. rewrite K, L, P. replace (match check m with Some ValueError => TooBig | Some e => Raised e | None => _ end) with (@TooBig R) by (destruct Ch as [->|[-> ->]]; reflexivity).
  replace (if b then save f2 m (temp_of a ++ ["raw.onnx"]) else Some f2) with (Some f3) by (destruct b; congruence). rewrite I4, L1. cbn [obind]. unfold input_dir. rewrite L2. reflexivity.
Qed.
Theorem C128_temp_removed_partial a f0 f2 raw m b f r : mkdir (temp_of a) (rmtree (temp_of a) f0) = inl f2 -> load_raw load_only load_external a f2 = Some raw -> prepare convert a raw = Some (m, b) ->
  (check m = Some ValueError \/ check m = None /\ infer (data_prop a) m = inr ValueError) ->
  (forall g g' dp src dst d, infer_path dp g src dst = Some g' -> g d = Some Directory -> g' d = Some Directory) -> (forall g g' x p d, save g x p = Some g' -> g d = Some Directory -> g' d = Some Directory) ->
  keep_temps a = false -> tool a f0 = (f, inl r) -> forall p, under (temp_of a) p -> f p = None.
Proof.
  intros K L P Ch Id Sd Kt H p U. unfold load_onnx_model, in_memory in H. rewrite K, L, P in H. replace (match check m with Some ValueError => TooBig | Some e => Raised e | None => _ end) with (@TooBig R) in H by (destruct Ch as [->|[-> ->]]; reflexivity).
  assert (D2 : f2 (temp_of a) = Some Directory). { unfold mkdir in K. destruct (rmtree (temp_of a) f0 (temp_of a)) as [[|c]|] eqn:Q; try discriminate; [injection K as <-; exact Q|]. destruct (rmtree (temp_of a) f0 (parent (temp_of a))) as [[|c]|]; try discriminate. injection K as <-. rewrite (proj2 (path_eqb_eq _ _) eq_refl). reflexivity. }
  destruct (if b then save f2 m (temp_of a ++ ["raw.onnx"]) else Some f2) as [f3|] eqn:S3; [|discriminate]. assert (D3 : f3 (temp_of a) = Some Directory) by (destruct b; [exact (Sd _ _ _ _ _ S3 D2)|congruence]).
  destruct (infer_path _ _ _ _) as [f4|] eqn:I4; [|discriminate]. pose proof (Id _ _ _ _ _ _ I4 D3) as D4. match type of H with context [match ?x with None => _ | Some _ => _ end] => destruct x end; [|discriminate]. rewrite Kt in H. injection H as <- _. unfold rmtree. rewrite D4, (proj2 (within_under _ _) U). reflexivity.
Qed.

(** ** The tool *)
Context {X : Type} (import : bool -> model R -> option X) (verifies : X -> bool).
Notation run := (main load_only load_external convert check infer save infer_path import verifies).
(** it ends well exactly when the model loads, imports and, unless it should not be, verifies; then the module that it writes is the import, verified before *)
Theorem C128_main a f0 f es : run a f0 = (f, es, true) <->
  exists m x, tool a f0 = (f, inl m) /\ import (negb (no_allowlist a)) m = Some x /\ (no_verify a = false -> verifies x = true) /\
  exists out, es = (if no_verify a then [] else [Verified x]) ++ [Written out x (negb (no_verify a))] /\
  (forall o, out = Some o <-> output_file a = Some o /\ o <> "" /\ o <> "-").
Proof.
  unfold main. destruct (tool a f0) as [f' [m|e]]; [|split; [discriminate|intros (m & x & H & _); discriminate]]. split.
  - destruct (import _ m) as [x|] eqn:Im; [|discriminate]. destruct (negb (no_verify a) && negb (verifies x)) eqn:V; [discriminate|]. intros [= <- <-]. exists m, x. split; [reflexivity|]. split; [exact Im|]. split; [intros Nv; rewrite Nv in V; cbn in V; destruct (verifies x); [reflexivity|discriminate]|].
    eexists. split; [reflexivity|]. intros o. destruct (output_file a) as [q|]; [|split; [discriminate|intros (Z & _); discriminate]]. destruct (String.eqb_spec q ""), (String.eqb_spec q "-"); subst; cbn; split; try discriminate; try (intros ([= <-] & Z1 & Z2); congruence). intros [= <-]. auto.
  - intros (m' & x & [= <- <-] & -> & V & out & -> & Ho). replace (negb (no_verify a) && negb (verifies x)) with false by (destruct (no_verify a); [reflexivity|rewrite (V eq_refl); reflexivity]). do 2 f_equal. f_equal. f_equal. f_equal. destruct (output_file a) as [q|] eqn:O.
    + destruct (String.eqb_spec q ""), (String.eqb_spec q "-"); subst; cbn; try (destruct out as [o|]; [destruct (proj1 (Ho o) eq_refl) as ([= <-] & Z1 & Z2); congruence|reflexivity]). symmetry. apply Ho. auto.
    + destruct out as [o|]; [destruct (proj1 (Ho o) eq_refl) as (Z & _); discriminate|reflexivity].
Qed.
End Theorems.

(** ** What goes wrong *)
Definition small_fs : fs nat := fun p => match find (fun q => path_eqb (fst q) p) [([], Directory); (["m"], Directory); (["m"; "x.onnx"], File 7%nat); (["m"; "onnx-importer-temp"], Directory); (["m"; "onnx-importer-temp"; "inferred.onnx"], File 8%nat)] with Some q => Some (snd q) | None => None end.
Definition small_load (f : fs nat) (p : path) : option (model nat) := match f p with Some (File c) => Some {| nodes := [Node "ai.onnx" "If" [Node "ai.onnx" "Add" []]]; others := c |} | _ => None end.
Definition small_external (f : fs nat) (m : model nat) (d : path) : option (model nat) := Some m.
Definition small_infer (dp : bool) (m : model nat) : model nat + exn := inl m.
Definition small_tool := load_onnx_model small_load small_external (fun m _ => Some m) (fun _ => None) small_infer (fun f _ _ => Some f) (fun _ f _ _ => Some f).
Definition small_args (input : path) (temp : option path) (clear : bool) : arguments := {| input_file := input; output_file := None; no_verify := false; data_prop := true; clear_domain := clear; keep_temps := false; temp_dir := temp; data_dir := None; opset_version := None; no_allowlist := false |}.
(** a model that is small enough leaves the temporary directory behind *)
Theorem C128_temp_left_refuted : ~ forall a f0 f r, keep_temps a = false -> small_tool a f0 = (f, inl r) -> f (temp_of a) = None.
Proof. intros H. specialize (H (small_args ["m"; "x.onnx"] None false) small_fs). cbv zeta in H. destruct (small_tool (small_args ["m"; "x.onnx"] None false) small_fs) as [f [r|e]] eqn:T; [|vm_compute in T; discriminate]. specialize (H f r eq_refl eq_refl). vm_compute in T. injection T as <- _. vm_compute in H. discriminate. Qed.
(** an input in the temporary directory, such as one kept by --keep-temps, is deleted before it is read *)
Theorem C128_input_deleted_refuted : ~ forall a f0 c, f0 (input_file a) = Some (File c) -> fst (small_tool a f0) (input_file a) = Some (File c).
Proof. intros H. specialize (H (small_args ["m"; "onnx-importer-temp"; "inferred.onnx"] (Some ["m"]) false) small_fs 8%nat eq_refl). vm_compute in H. discriminate. Qed.
(** --clear-domain leaves the domain of nodes in subgraphs *)
Fixpoint no_domain (n : node) : bool := match n with Node d _ subs => (d =? "")%string && forallb no_domain subs end.
Theorem C128_subgraph_refuted : ~ forall a f0 f r, clear_domain a = true -> small_tool a f0 = (f, inl r) -> forallb no_domain (nodes r) = true.
Proof. intros H. specialize (H (small_args ["m"; "x.onnx"] None true) small_fs). destruct (small_tool (small_args ["m"; "x.onnx"] None true) small_fs) as [f [r|e]] eqn:T; [|vm_compute in T; discriminate]. specialize (H f r eq_refl eq_refl). vm_compute in T. injection T as _ <-. vm_compute in H. discriminate. Qed.
Example C128_nonvacuous :
  snd (small_tool (small_args ["m"; "x.onnx"] None true) small_fs) = inl {| nodes := [Node "" "If" [Node "ai.onnx" "Add" []]]; others := 7%nat |} /\
  fst (small_tool (small_args ["m"; "x.onnx"] None true) small_fs) ["m"; "x.onnx"] = Some (File 7%nat) /\
  fst (small_tool (small_args ["m"; "x.onnx"] None true) small_fs) ["m"; "onnx-importer-temp"; "inferred.onnx"] = None /\
  snd (small_tool (small_args ["n"; "x.onnx"] None true) small_fs) = inr NotFound /\
  (let big := load_onnx_model small_load small_external (fun m _ => Some m) (fun _ => Some ValueError) small_infer (fun f m p => Some (fun q => if path_eqb p q then Some (File (others m)) else f q)) (fun _ f s d => Some (fun q => if path_eqb d q then f s else f q)) in
   snd (big (small_args ["m"; "x.onnx"] None false) small_fs) = inl {| nodes := [Node "ai.onnx" "If" [Node "ai.onnx" "Add" []]]; others := 7%nat |} /\ fst (big (small_args ["m"; "x.onnx"] None false) small_fs) ["m"; "onnx-importer-temp"] = None).
Proof. vm_compute. repeat split. Qed.
Print Assumptions C128_frame.
Print Assumptions C128_starts.
Print Assumptions C128_result.
Print Assumptions C128_succeeds_in_memory.
Print Assumptions C128_rejected.
Print Assumptions C128_too_big.
Print Assumptions C128_temp_removed_partial.
Print Assumptions C128_main.
Print Assumptions C128_temp_left_refuted.
Print Assumptions C128_input_deleted_refuted.
Print Assumptions C128_subgraph_refuted.
