(** C133: adaptive pools, convolutions with named padding, and pads. *)
From Coq Require Import ZArith Bool PeanoNat String Lia List.
From Verif Require Import Prelude TensorOps DecWindowModel DecWindowSpec DecWindowProofs.
Import ListNotations.
Open Scope string_scope.
Open Scope list_scope.
Open Scope Z_scope.

(** An accepted adaptive pool of two axes covers, on each axis, exactly PyTorch's positions ... *)
Theorem C133_pool2d_covers : forall input output w i x, 1 <= input -> 1 <= output -> pool2d input output = Done w -> 0 <= i < output ->
  (adaptive_covers input output i x <-> pool_covers (kernel w) (stride w) i x) /\ padding w = 0.
Proof. exact pool2d_covers. Qed.
(** ... has exactly the outputs asked for if its stride is not zero ... *)
Theorem C133_pool2d_outputs_partial : forall input output w, 1 <= input -> 1 <= output -> pool2d input output = Done w -> stride w <> 0 ->
  0 < stride w /\ forall i, pool_has input (kernel w) (stride w) i <-> 0 <= i < output.
Proof. exact pool2d_has. Qed.
(** ... and fails exactly if no kernel and stride cover PyTorch's positions. *)
Theorem C133_pool2d_supported : forall input output, 1 <= input -> 1 <= output ->
  (pool2d input output <> Fails <-> exists k s, forall i x, 0 <= i < output -> (adaptive_covers input output i x <-> pool_covers k s i x)).
Proof. exact pool2d_supported. Qed.
(** An input of size 1 and an output of size 2 or more passes the assertions and gives a stride of zero. *)
Theorem C133_pool2d_zero_stride_refuted : forall output, 2 <= output -> pool2d 1 output = Done {| kernel := 1; stride := 0; padding := 0 |}.
Proof.
  intros O H. destruct (pool2d_is 1 O ltac:(lia) ltac:(lia)) as [[_ R]|[_ E]].
  - rewrite Z.mod_small in R by lia. lia.
  - rewrite E, Z.mod_small, Z.div_small by lia. reflexivity.
Qed.
Theorem C133_pool2d_zero_stride_only : forall input output w, 1 <= input -> 1 <= output -> pool2d input output = Done w ->
  (stride w = 0 <-> input = 1 /\ 2 <= output).
Proof. exact pool2d_stride. Qed.
(** An output size of zero is an error of the remainder. *)
Theorem C133_pool2d_empty : forall input, pool2d input 0 = Fails.
Proof. reflexivity. Qed.

(** An accepted adaptive pool of one axis. *)
Theorem C133_pool1d_partial : forall constant input output w, 1 <= input -> 1 <= output -> pool1d false constant input output = Done w ->
  padding w = 0 /\ (forall i x, 0 <= i < output -> (adaptive_covers input output i x <-> pool_covers (kernel w) (stride w) i x)) /\
  forall i, pool_has input (kernel w) (stride w) i <-> 0 <= i < output.
Proof. exact pool1d_covers. Qed.
Theorem C133_pool1d_window : forall strict input output w, pool1d strict true input output = Done w ->
  stride w = 1 /\ kernel w = if output =? 1 then input else 1.
Proof.
  intros s I O w H. unfold pool1d in H. cbn [negb] in H. destruct (Z.eqb_spec O 1); [injection H as <-; auto|].
  destruct (negb s && negb (I =? O)); [discriminate|]. injection H as <-. auto.
Qed.
Theorem C133_pool1d_outcome : forall strict constant input output,
  (pool1d strict constant input output = Refused <-> constant = false) /\
  (pool1d strict constant input output = Fails <-> constant = true /\ strict = false /\ output <> 1 /\ input <> output) /\
  pool1d strict constant input output <> Undefined.
Proof.
  intros s c I O. unfold pool1d. destruct c, s, (Z.eqb_spec O 1), (Z.eqb_spec I O); cbn [negb andb]; repeat split; intros; try congruence; try discriminate; intuition congruence.
Qed.
(** With strict symbolic shapes the sizes are not compared, and there are as many outputs as inputs. *)
Theorem C133_pool1d_strict_refuted : forall input output, output <> 1 -> exists w, pool1d true true input output = Done w /\
  forall i, pool_has input (kernel w) (stride w) i <-> 0 <= i < input.
Proof.
  intros I O N. unfold pool1d. destruct (Z.eqb_spec O 1); [contradiction|]. cbn [negb andb]. eexists. split; [reflexivity|].
  intros i. unfold pool_has. cbn [kernel stride]. lia.
Qed.

(** The paddings of a convolution: none for "valid", and otherwise half, rounded down, of what the kernel needs. *)
Theorem C133_conv_paddings : forall weight dilation m ps, conv_paddings weight dilation (Some m) = Done ps ->
  List.length ps = (List.length weight - 2)%nat /\
  forall j k, nth_error weight (j + 2) = Some k -> exists p, nth_error ps j = Some p /\
    (m = "valid" -> p = 0) /\ (m <> "valid" -> exists d, nth_error dilation j = Some d /\ 2 * p <= d * (k - 1) < 2 * p + 2).
Proof.
  intros w dil m ps H. unfold conv_paddings in H. destruct (Z.ltb_spec (zlen w) 3); [discriminate|].
  unfold zlen in *. destruct w as [|o w]; [cbn [List.length] in *; lia|]. destruct w as [|c w]; [cbn [List.length] in *; lia|]. cbn [skipn] in H. cbn [List.length].
  assert (Nj : forall j k, nth_error (o :: c :: w) (j + 2) = Some k -> nth_error w j = Some k) by (intros j k; rewrite Nat.add_comm; auto).
  destruct (String.eqb_spec m "valid") as [->|N].
  - injection H as <-. split; [rewrite map_length; lia|]. intros j k J. apply Nj in J. exists 0.
    split; [erewrite map_nth_error; [reflexivity|exact J]|]. split; [reflexivity|congruence].
  - destruct (same_paddings_is _ _ _ H) as [L G]. split; [lia|]. intros j k J. apply Nj in J. destruct (G j k J) as (d & p & D & P & B).
    exists p. split; [exact P|]. split; [congruence|]. intros _. exists d. auto.
Qed.
Theorem C133_conv_outcome : forall weight dilation mode,
  (conv_paddings weight dilation mode = Refused <-> (List.length weight < 3)%nat \/ mode = None) /\
  (conv_paddings weight dilation mode = Undefined <->
    (3 <= List.length weight)%nat /\ (exists m, mode = Some m /\ m <> "valid") /\ (List.length dilation < List.length weight - 2)%nat).
Proof.
  intros w dil mode. unfold conv_paddings, zlen. destruct (Z.ltb_spec (Z.of_nat (List.length w)) 3).
  - split; split; intros; try discriminate; try reflexivity; [left; lia|exfalso; lia].
  - destruct mode as [m|]; [|split; split; intros; try discriminate; auto; destruct H0 as (_ & (m & X & _) & _); discriminate].
    destruct (String.eqb_spec m "valid") as [->|N].
    + split; split; intros X; try discriminate; [destruct X; [lia|discriminate]|]. destruct X as (_ & (m & E & N) & _). congruence.
    + destruct (same_paddings_outcome (skipn 2 w) dil) as (A & _ & C). rewrite skipn_length in C. split; [split; intros X; [contradiction|destruct X; [lia|discriminate]]|].
      rewrite C. split; [intros X; split; [lia|split; [exists m; auto|assumption]]|tauto].
Qed.
(** If the kernel needs an even number of positions, these are PyTorch's pads for "same", and there are as many outputs as inputs. *)
Theorem C133_conv_same_partial : forall kernel dilation p left right input,
  2 * p <= dilation * (kernel - 1) < 2 * p + 2 -> same_pads kernel dilation left right ->
  left = p /\ (Z.even (dilation * (kernel - 1)) = true -> right = p /\ forall i, conv_has input kernel dilation p p i <-> 0 <= i < input) /\
  forall i, conv_has input kernel dilation left right i <-> 0 <= i < input.
Proof.
  intros k d p l r n B [S0 L]. split; [lia|]. split; [|intros i; unfold conv_has; lia].
  intros Ev. apply Z.even_spec in Ev. destruct Ev as [q Eq]. split; [lia|]. intros i. unfold conv_has. lia.
Qed.
(** If it needs an odd number, one output is missing. *)
Theorem C133_conv_same_odd_refuted : forall kernel dilation p input,
  2 * p <= dilation * (kernel - 1) < 2 * p + 2 -> Z.odd (dilation * (kernel - 1)) = true ->
  forall i, conv_has input kernel dilation p p i <-> 0 <= i < input - 1.
Proof. intros k d p n B Od i. apply Z.odd_spec in Od. destruct Od as [q Eq]. unfold conv_has. lia. Qed.
(** Any text is taken to be "same". *)
Theorem C133_conv_mode_refuted : forall weight dilation m, m <> "valid" -> conv_paddings weight dilation (Some m) = conv_paddings weight dilation (Some "same").
Proof. intros w dil m N. unfold conv_paddings. destruct (zlen w <? 3); [reflexivity|]. destruct (String.eqb_spec m "valid"); [contradiction|reflexivity]. Qed.

(** A created pad has the value of the pad that was asked for: only pairs of zeros at the end are left out. *)
Theorem C133_pad_reflect_replicate : forall name ps constants optional dims qs kind mode,
  pad (Some name) (Some ps) constants optional = Done (kind, Some qs) ->
  kind = Reflection dims /\ mode = Reflect \/ kind = Replication dims /\ mode = Replicate ->
  Nat.even (List.length ps) = true ->
  name = match mode with Reflect => "reflect" | Replicate => "replicate" end /\
  List.length qs = (2 * dims)%nat /\ (1 <= dims <= 3)%nat /\
  forall A (t : tensor A), same (torch_pad mode t qs) (torch_pad mode t ps).
Proof.
  intros name ps cs opt dims qs kind mode H K Ev. unfold pad in H.
  destruct (String.eqb_spec name "constant"). { destruct opt; [discriminate|]. injection H as <- <-. destruct K as [[? _]|[? _]]; discriminate. }
  assert (G : exists e, Nat.even e = true /\ (exists z, ps = firstn e ps ++ z /\ Forall (fun x => x = 0) z) /\ List.length (firstn e ps) = e /\
    (if (name =? "reflect")%string then if Nat.leb 1 (Nat.div e 2) && Nat.leb (Nat.div e 2) 3 then Done (Reflection (Nat.div e 2), Some (firstn e ps)) else Refused
     else if (name =? "replicate")%string then if Nat.leb 1 (Nat.div e 2) && Nat.leb (Nat.div e 2) 3 then Done (Replication (Nat.div e 2), Some (firstn e ps)) else Refused
     else Refused) = Done (kind, Some qs)).
  { destruct cs.
    - destruct (Nat.odd (List.length ps)) eqn:Od; [discriminate|]. destruct (useful_end (rev ps)) as [e|] eqn:U; [|discriminate].
      destruct (useful_pads ps e Od U) as (u & z & Ep & F & Fn & El & Ee & _). exists e. split; [exact Ee|].
      split; [exists z; rewrite Fn; auto|]. split; [congruence|exact H].
    - exists (List.length ps). split; [exact Ev|]. rewrite firstn_all in *. split; [exists []; rewrite app_nil_r; auto|]. split; [reflexivity|exact H]. }
  destruct G as (e & Ee & (z & Ep & F) & Ln & G). apply Nat.even_spec in Ee as Ee'. destruct Ee' as [d Ed].
  assert (Dv : Nat.div e 2 = d) by (rewrite Ed, Nat.mul_comm; apply Nat.div_mul; lia). rewrite Dv in G.
  assert (Sm : forall A (t : tensor A), same (torch_pad mode t (firstn e ps)) (torch_pad mode t ps)).
  { intros A t. pose proof (pad_same A mode t (firstn e ps) z) as X. rewrite <- Ep in X. apply X; [now rewrite Ln|exact F]. }
  destruct (String.eqb_spec name "reflect") as [->|].
  - destruct (Nat.leb_spec 1 d), (Nat.leb_spec d 3); try discriminate. cbn [andb] in G. injection G as <- <-.
    destruct K as [[E ->]|[E _]]; [|discriminate]. injection E as ->. split; [reflexivity|]. split; [lia|]. split; [lia|exact Sm].
  - destruct (String.eqb_spec name "replicate") as [->|]; [|discriminate].
    destruct (Nat.leb_spec 1 d), (Nat.leb_spec d 3); try discriminate. cbn [andb] in G. injection G as <- <-.
    destruct K as [[E _]|[E ->]]; [discriminate|]. injection E as ->. split; [reflexivity|]. split; [lia|]. split; [lia|exact Sm].
Qed.
(** The last pair of constants that is kept is not two zeros, so the least number of axes is padded. *)
Theorem C133_pad_least : forall name ps optional kind qs, pad (Some name) (Some ps) true optional = Done (kind, Some qs) -> kind <> Constant ->
  exists rest l r, qs = rest ++ [l; r] /\ (l <> 0 \/ r <> 0).
Proof.
  intros name ps opt kind qs H K. unfold pad in H.
  destruct (String.eqb_spec name "constant"). { destruct opt; [discriminate|]. injection H as <- <-. contradiction. }
  destruct (Nat.odd (List.length ps)) eqn:Od; [discriminate|]. destruct (useful_end (rev ps)) as [e|] eqn:U; [|discriminate].
  assert (Ev : Nat.even (List.length (rev ps)) = true) by (rewrite rev_length, <- Nat.negb_odd, Od; reflexivity).
  pose proof (useful_end_is (rev ps) Ev) as X. rewrite U in X. destruct X as (z & b & a & r & El & F & Ez & N & He).
  assert (Ep : ps = rev (b :: a :: r) ++ rev z) by (rewrite <- rev_app_distr, <- El, rev_involutive; reflexivity).
  assert (Fn : firstn e ps = rev r ++ [a; b]).
  { rewrite Ep, He, <- (rev_length (b :: a :: r)), firstn_app, firstn_all, Nat.sub_diag. cbn [firstn rev]. rewrite app_nil_r, <- app_assoc. reflexivity. }
  rewrite Fn in H. exists (rev r), a, b. split; [|tauto].
  destruct (name =? "reflect")%string, (name =? "replicate")%string, (Nat.leb 1 (Nat.div e 2) && Nat.leb (Nat.div e 2) 3)%bool; try discriminate; injection H as _ <-; reflexivity.
Qed.
(** Constant pads of zeros only, or none at all, make the compiler read outside its vector, and nothing else does. *)
Theorem C133_pad_undefined : forall mode pads constants optional,
  pad mode pads constants optional = Undefined <->
  exists name ps, mode = Some name /\ name <> "constant" /\ pads = Some ps /\ constants = true /\ Nat.even (List.length ps) = true /\ Forall (fun x => x = 0) ps.
Proof.
  intros mode pads cs opt. unfold pad. split.
  - destruct mode as [name|]; [|discriminate]. destruct (String.eqb_spec name "constant"); [destruct opt; discriminate|].
    destruct pads as [ps|]; [|discriminate]. intros H. exists name, ps.
    assert (Fin : forall e, (let dims := Nat.div e 2 in
      if (name =? "reflect")%string then if Nat.leb 1 dims && Nat.leb dims 3 then Done (Reflection dims, Some (firstn e ps)) else Refused
      else if (name =? "replicate")%string then if Nat.leb 1 dims && Nat.leb dims 3 then Done (Replication dims, Some (firstn e ps)) else Refused
      else Refused) <> Undefined).
    { intros e. cbv zeta. destruct (name =? "reflect")%string, (name =? "replicate")%string, (Nat.leb 1 (Nat.div e 2) && Nat.leb (Nat.div e 2) 3)%bool; discriminate. }
    destruct cs; [|exfalso; exact (Fin _ H)]. destruct (Nat.odd (List.length ps)) eqn:Od; [discriminate|].
    destruct (useful_end (rev ps)) as [e|] eqn:U; [exfalso; exact (Fin _ H)|].
    assert (Ev : Nat.even (List.length ps) = true) by (rewrite <- Nat.negb_odd, Od; reflexivity).
    pose proof (useful_end_is (rev ps)) as X. rewrite U, rev_length in X. specialize (X Ev).
    do 4 (split; [reflexivity || assumption|]). split; [exact Ev|]. rewrite <- (rev_involutive ps). apply Forall_rev. exact X.
  - intros (name & ps & -> & N & -> & -> & Ev & F). destruct (String.eqb_spec name "constant"); [contradiction|].
    rewrite <- Nat.negb_even, Ev. cbn [negb]. pose proof (useful_end_is (rev ps)) as X. rewrite rev_length in X. specialize (X Ev).
    destruct (useful_end (rev ps)); [|reflexivity]. exfalso. destruct X as (z & b & a & r & El & _ & _ & Nz & _).
    apply Forall_rev in F. rewrite El in F. rewrite Forall_app in F. destruct F as [_ F]. inversion F as [|? ? Fb F']; subst. inversion F'; subst. tauto.
Qed.
(** The constant mode passes the pads on. *)
Theorem C133_pad_constant : forall pads constants optional r,
  pad (Some "constant") pads constants optional = r <-> r = if optional then Refused else Done (Constant, pads).
Proof. intros. unfold pad. change ("constant" =? "constant")%string with true. cbv iota. split; congruence. Qed.
(** What is refused in the other modes. *)
Theorem C133_pad_refused : forall name ps optional, name <> "constant" -> Forall (fun x => x <> 0) ps ->
  (pad (Some name) (Some ps) true optional = Refused <->
   ps <> [] /\ (Nat.even (List.length ps) = false \/ (name <> "reflect" /\ name <> "replicate") \/ (6 < List.length ps)%nat)).
Proof.
  intros name ps opt N F. unfold pad. destruct (String.eqb_spec name "constant"); [contradiction|].
  rewrite <- Nat.negb_even. destruct (Nat.even (List.length ps)) eqn:Ev; cbn [negb].
  2:{ split; [|reflexivity]. intros _. split; [intros ->; discriminate|auto]. }
  pose proof (useful_end_is (rev ps)) as X. rewrite rev_length in X. specialize (X Ev).
  destruct (useful_end (rev ps)) as [e|].
  - destruct X as (z & b & a & r & El & Fz & _ & _ & He). apply Forall_rev in F. rewrite El in F.
    destruct z as [|x z]; [|inversion F; inversion Fz; subst; contradiction]. cbn [app] in El.
    assert (Le : List.length ps = e) by (rewrite <- (rev_length ps), El, He; reflexivity). rewrite Le.
    assert (Np : ps <> []) by (intros ->; cbn in Le; rewrite He in Le; discriminate).
    rewrite Le in Ev. apply Nat.even_spec in Ev. destruct Ev as [d Ed].
    assert (Dv : Nat.div e 2 = d) by (rewrite Ed, Nat.mul_comm; apply Nat.div_mul; lia). cbv zeta. rewrite Dv.
    assert (1 <= d)%nat by (cbn in He; lia).
    destruct (String.eqb_spec name "reflect") as [E1|E1], (String.eqb_spec name "replicate") as [E2|E2];
      destruct (Nat.leb_spec 1 d), (Nat.leb_spec d 3); cbn [andb]; try lia;
      (split; intros Y; [first [discriminate Y | split; [exact Np|]; first [right; left; split; assumption | right; right; lia | congruence]]
                        |first [reflexivity | exfalso; destruct Y as (_ & [Y|[[Y Y']|Y]]); first [discriminate Y | contradiction | lia | congruence]]]).
  - split; [discriminate|]. intros [Np _]. exfalso. apply Forall_rev in F. apply Np. rewrite <- (rev_involutive ps).
    destruct (rev ps) as [|x l]; [reflexivity|]. inversion X; inversion F; subst; contradiction.
Qed.

Example C133_nonvacuous :
  pool2d 7 3 = Done {| kernel := 3; stride := 2; padding := 0 |} /\
  pool2d 8 4 = Done {| kernel := 2; stride := 2; padding := 0 |} /\
  pool2d 5 3 = Fails /\
  pool1d false true 9 1 = Done {| kernel := 9; stride := 1; padding := 0 |} /\
  pool1d false true 6 3 = Fails /\
  conv_paddings [8; 4; 3; 4] [2; 1] (Some "same") = Done [2; 1] /\
  conv_paddings [8; 4; 3; 4] [] (Some "valid") = Done [0; 0] /\
  pad (Some "reflect") (Some [1; 2; 0; 0]) true false = Done (Reflection 1, Some [1; 2]) /\
  pad (Some "replicate") (Some [0; 0; 0; 1]) true false = Done (Replication 2, Some [0; 0; 0; 1]) /\
  pad (Some "reflect") (Some [0; 0]) true false = Undefined /\
  pad (Some "circular") (Some [1; 1]) true false = Refused.
Proof. repeat split. Qed.

Print Assumptions C133_pool2d_covers.
Print Assumptions C133_pool2d_outputs_partial.
Print Assumptions C133_pool2d_supported.
Print Assumptions C133_pool2d_zero_stride_refuted.
Print Assumptions C133_pool2d_zero_stride_only.
Print Assumptions C133_pool2d_empty.
Print Assumptions C133_pool1d_partial.
Print Assumptions C133_pool1d_window.
Print Assumptions C133_pool1d_outcome.
Print Assumptions C133_pool1d_strict_refuted.
Print Assumptions C133_conv_paddings.
Print Assumptions C133_conv_outcome.
Print Assumptions C133_conv_same_partial.
Print Assumptions C133_conv_same_odd_refuted.
Print Assumptions C133_conv_mode_refuted.
Print Assumptions C133_pad_reflect_replicate.
Print Assumptions C133_pad_least.
Print Assumptions C133_pad_undefined.
Print Assumptions C133_pad_constant.
Print Assumptions C133_pad_refused.
