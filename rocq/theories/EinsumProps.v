(** C113: einsum as permutations, reshapes and matrix products. *)
From Coq Require Import ZArith Bool Ascii String Lia Ring_theory ZArithRing List.
From Verif Require Import Prelude TensorOps EinsumModel EinsumSpec EinsumProofs.
Import ListNotations.
Open Scope list_scope.
Open Scope Z_scope.

(** For any elements with a commutative sum and product: an equation with an arrow computes einsum. *)
Theorem C113_einsum_partial : forall R (zero one : R) (plus times : R -> R -> R), semi_ring_theory zero one plus times eq ->
  forall size ins out (ts : list (tensor R)) text, spaced text (written ins out) -> consistent size ins ts ->
  ins <> [] -> Forall (Forall is_letter) ins -> Forall is_letter out -> NoDup out -> incl out (concat ins) ->
  out <> [] \/ last ins [] <> [] -> at_most_two ins out ->
  exists u, dec_einsum zero plus times text ts = Some u /\ same u (einsum zero one plus times size ins out ts).
Proof. intros. now apply einsum_proof. Qed.
(** The ellipsis stands for new letters, the last ones for the operands that have fewer dimensions. *)
Theorem C113_ellipsis_partial : forall R (zero one : R) (plus times : R -> R -> R), semi_ring_theory zero one plus times eq ->
  forall ops out (ts : list (tensor R)) m, ops <> [] -> commas (map shown ops) <> [] -> Forall spelled ops -> spelled out ->
  (exists o, In o ops /\ snd o <> None) -> Forall2 (fun o t => 0 <= covered (rank t) o <= m) ops ts ->
  (exists o t, In (o, t) (combine ops ts) /\ covered (rank t) o = m) -> 0 < m <= zlen (unused ops) ->
  exists new, zlen new = m /\ NoDup new /\ Forall is_letter new /\ (forall c, In c new -> ~ In c (concat (map own ops))) /\
    forall size, let ins := filled_all new ops (map rank ts) in let res := filled new (zlen (own out) + m) out in
      consistent size ins ts -> res <> [] \/ last ins [] <> [] -> at_most_two ins res -> NoDup res -> incl res (concat ins) ->
      exists u, dec_einsum zero plus times (commas (map shown ops) ++ arrow ++ shown out) ts = Some u /\ same u (einsum zero one plus times size ins res ts).
Proof. intros. now apply ellipsis_proof. Qed.
Theorem C113_equations_are_read_back : forall ins out text, spaced text (written ins out) -> ins <> [] -> Forall (Forall is_letter) ins -> Forall is_letter out ->
  parse_equation text = Some (ins, out).
Proof. intros ins out text S N F Fo. unfold parse_equation. rewrite (parse_spaced _ _ S). now apply parse_written. Qed.

Notation zeinsum := (einsum 0 1 Z.add Z.mul).
Notation dec := (dec_einsum 0 Z.add Z.mul).
Definition chars (s : string) : letters := list_ascii_of_string s.
Definition vec (l : list Z) : tensor Z := {| sizes := [zlen l]; elt := fun ix => nth (Z.to_nat (get ix 0)) l 0 |}.
Definition mat (n m : Z) (l : list Z) : tensor Z := {| sizes := [n; m]; elt := fun ix => nth (Z.to_nat (get ix 0 * m + get ix 1)) l 0 |}.
Definition values (t : tensor Z) : list Z := map (elt t) (all_indices (sizes t)).
Lemma zring : semi_ring_theory 0 1 Z.add Z.mul eq.
Proof. split; intros; ring. Qed.
Lemma values_same : forall t u : tensor Z, Forall (fun n => 0 <= n) (sizes t) -> same t u -> values t = values u.
Proof. intros t u F [S E]. unfold values. rewrite <- S. apply map_ext_in. intros ix I. apply E. now apply all_within. Qed.

(** A letter in three operands that is not in the result is summed after the first two. *)
Theorem C113_letter_of_three_operands_refuted : exists size ins (ts : list (tensor Z)) u, consistent size ins ts /\ Forall (Forall is_letter) ins /\
  dec (written ins []) ts = Some u /\ ~ same u (zeinsum size ins [] ts).
Proof.
  exists (fun _ => 2), [["i"]; ["i"]; ["i"]]%char, [vec [1; 1]; vec [1; 1]; vec [1; 1]]. eexists. split; [split; [lia|repeat constructor]|].
  split; [repeat constructor; right; cbn; lia|]. split; [vm_compute; reflexivity|]. intros S. apply values_same in S; [|constructor]. vm_compute in S. discriminate.
Qed.
(** Without an arrow everything is summed, whatever letters occur once. *)
Theorem C113_without_an_arrow_all_is_summed : forall R (zero one : R) (plus times : R -> R -> R), semi_ring_theory zero one plus times eq ->
  forall size ins (ts : list (tensor R)), consistent size ins ts -> ins <> [] -> Forall (Forall is_letter) ins -> last ins [] <> [] -> at_most_two ins [] ->
  exists u, dec_einsum zero plus times (commas ins) ts = Some u /\ same u (einsum zero one plus times size ins [] ts).
Proof. intros. now apply no_arrow_proof. Qed.
Theorem C113_without_an_arrow_refuted : exists size ins (ts : list (tensor Z)) u, consistent size ins ts /\ dec (commas ins) ts = Some u /\ ~ same u (zeinsum size ins (implicit ins) ts).
Proof.
  exists (fun _ => 2), [["i"; "j"]; ["j"; "k"]]%char, [mat 2 2 [1; 2; 3; 4]; mat 2 2 [1; 0; 0; 1]]. eexists. split; [split; [lia|repeat constructor]|].
  split; [vm_compute; reflexivity|]. intros [S _]. vm_compute in S. discriminate.
Qed.
(** A last operand without dimensions is lost if the result has none. *)
Theorem C113_last_scalar_operand_refuted : forall R (zero one : R) (plus times : R -> R -> R), semi_ring_theory zero one plus times eq ->
  forall size ins (ts : list (tensor R)), consistent size ins ts -> ins <> [] -> Forall (Forall is_letter) ins -> last ins [] = [] ->
  dec_einsum zero plus times (written ins []) ts = None.
Proof. intros R zero one plus times H size ins ts C N F L. now apply (last_scalar_proof R zero one plus times H size). Qed.
(** An ellipsis that stands for no dimension anywhere is replaced by all unused letters. *)
Theorem C113_ellipsis_of_no_dimensions : forall ops out ranks, ops <> [] -> commas (map shown ops) <> [] -> Forall spelled ops -> spelled out -> Forall2 (fun o r => covered r o = 0) ops ranks ->
  rewrite_ellipsis (commas (map shown ops) ++ arrow ++ shown out) ranks =
    Some (commas (map (fun o => match snd o with Some post => fst o ++ unused ops ++ post | None => fst o end) ops) ++ " "%char :: arrow ++ " "%char ::
          match snd out with Some post => fst out ++ unused ops ++ post | None => fst out end).
Proof.
  intros ops out ranks NE NT S So F. assert (F0 : Forall2 (fun o r => 0 <= covered r o <= 0) ops ranks) by (clear -F; induction F; constructor; auto; lia). rewrite (rewrite_general ops out ranks 0) by auto. cbv zeta. rewrite fresh_all, filter_unused by (lia || auto).
  assert (E : forall new, replaced_all new 0 (map shown ops) (map (fun p => covered (snd p) (fst p)) (combine ops ranks)) = Some (map (fun o => match snd o with Some post => fst o ++ new ++ post | None => fst o end) ops)).
  { intros new. clear -F S. induction F as [|o r ops ranks C F IH]; [reflexivity|]. inversion_clear S as [|? ? So S']. cbn [map combine fst snd replaced_all]. unfold replaced. rewrite shown_dots, C by auto. rewrite IH by auto.
    destruct So as [F1 F2]. destruct o as [pre [post|]]; cbn [fst snd] in *; cbn [Z.eqb obind]; [unfold shown at 1; cbn [fst snd]; rewrite replace_letters by auto; reflexivity|unfold shown at 1; cbn [fst snd]; rewrite app_nil_r; reflexivity]. }
  rewrite E. reflexivity.
Qed.
Theorem C113_ellipsis_of_no_dimensions_refuted : exists t : tensor Z, rank t = 1 /\ dec (chars "...i->...i") [t] = None /\ dec (chars "i->i") [t] <> None.
Proof. exists (vec [1; 2]). split; [reflexivity|]. split; [vm_compute; reflexivity|vm_compute; discriminate]. Qed.
(** A product whose subscripts name more dimensions than an operand has is not decomposed. *)
Theorem C113_subscripts_beyond_the_rank : forall R (zero : R) (plus times : R -> R -> R) (lhs rhs : tensor R) l r out, (rank lhs < zlen l \/ rank rhs < zlen r) ->
  perform_matmul zero plus times lhs l rhs r out = None.
Proof.
  intros R zero plus times lhs rhs l r out H. unfold perform_matmul.
  destruct (Z.ltb_spec (rank lhs) (zlen l)); [reflexivity|]. destruct (Z.ltb_spec (rank rhs) (zlen r)); [reflexivity|lia].
Qed.
(** A dimension of size 1 that is summed is not broadcast. *)
Theorem C113_broadcast_of_a_summed_letter_refuted : exists t u : tensor Z, sizes t = [1] /\ sizes u = [3] /\ dec (chars "i,i->") [t; u] = None.
Proof. exists (vec [2]), (vec [1; 2; 3]). split; [reflexivity|]. split; [reflexivity|vm_compute; reflexivity]. Qed.

Definition size3 (c : ascii) : Z := if Ascii.eqb c "i"%char then 2 else if Ascii.eqb c "j"%char then 3 else 2.
Example C113_nonvacuous :
  let ins := [["i"; "j"]; ["j"; "k"]; ["k"; "k"]]%char in let out := ["k"; "i"]%char in
  let ts := [mat 2 3 [1; 2; 3; 4; 5; 6]; mat 3 2 [1; 0; 2; 1; 0; 3]; mat 2 2 [10; 7; 8; 100]] in
  consistent size3 ins ts /\ at_most_two ins out /\ incl out (concat ins) /\ spaced (chars "ij, jk, kk -> ki") (written ins out) /\
  option_map values (dec (chars "ij, jk, kk -> ki") ts) = Some (values (zeinsum size3 ins out ts)) /\ values (zeinsum size3 ins out ts) = [50; 140; 1100; 2300] /\
  option_map values (dec (chars "...j,jk->...k") [mat 2 3 [1; 2; 3; 4; 5; 6]; mat 3 2 [1; 0; 2; 1; 0; 3]]) = Some [5; 11; 14; 23] /\
  implicit [["i"; "j"]; ["j"; "K"]]%char = ["K"; "i"]%char.
Proof.
  cbv zeta. split; [split; [intros c; unfold size3; destruct (Ascii.eqb c "i"), (Ascii.eqb c "j"); lia|repeat constructor]|].
  split. { intros c N. unfold operands_with. cbn [filter]. destruct (existsb (Ascii.eqb c) ["i"; "j"]%char) eqn:E1, (existsb (Ascii.eqb c) ["j"; "k"]%char) eqn:E2, (existsb (Ascii.eqb c) ["k"; "k"]%char) eqn:E3; cbn [length]; try lia.
    exfalso. apply N. apply existsb_exists in E3. destruct E3 as (x & [<-|[<-|[]]] & X); apply Ascii.eqb_eq in X; subst; now left. }
  split; [intros c [<-|[<-|[]]]; cbn; tauto|]. split; [repeat (apply spaced_arrow || (apply spaced_char; [discriminate|discriminate|]) || apply spaced_space || apply spaced_nil)|].
  split; [vm_compute; reflexivity|]. split; [vm_compute; reflexivity|]. split; vm_compute; reflexivity.
Qed.
Print Assumptions C113_einsum_partial.
Print Assumptions C113_ellipsis_partial.
Print Assumptions C113_last_scalar_operand_refuted.
