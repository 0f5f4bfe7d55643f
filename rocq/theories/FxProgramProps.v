(** Properties of import_program: C08 (whole programs), C09, C10, C11, C12. *)
From Coq Require Import String ZArith Bool Lia List.
From Verif Require Import Prelude FxGraphModel FxGraphSpec FxGraphSsa FxGraphTrace FxGraphProofs
  FxGraphProps FxProgramModel FxProgramSpec FxProgramProofs FxProgramRun FxProgramLoads.
Import ListNotations.
Open Scope nat_scope.

(** A program that torch.export could have produced, run on some inputs. *)
Definition exported_run (T : Type) (W : world T) (registry : string -> option schema)
    (p : program) (inputs : list (rv T)) (efin : fenv T) (outs : list (rv T)) : Prop :=
  pytorch_ok T W registry (pg_graph p) /\ export_ok p /\ computed_mutations p /\
  meta_ok T (pg_graph p) efin /\ program_run T W p inputs = Some (efin, outs).

Lemma exported_assembled : forall T W registry p inputs efin outs tys ops vs,
  exported_run T W registry p inputs efin outs ->
  import_program registry p = Some (tys, ops, vs) ->
  exists binds t m,
  bind_inputs T W p (pg_ins p) inputs = Some binds /\ input_tables p = Some t /\
  tys = map snd (t_user t) /\ length tys = length inputs /\
  run T W (start T inputs) ops = Some m /\ Forall2 (holds T m) vs outs /\
  (forall q l x, sget (hooks_of p t) q = Some l -> sget efin q = Some (FOne x) ->
     mget T (m_mem T m) l = Some x) /\
  (forall l, (forall q, sget (hooks_of p t) q <> Some l) ->
     mget T (m_mem T m) l = mget T (m_mem T (start T inputs)) l).
Proof.
  intros T W registry p inputs efin outs tys ops vs ((H1 & H2 & H3 & H4 & H5) & H6 & H7 & H8 & H9) Hi.
  eapply assembled; eauto.
Qed.

(** ** C08: the body of every imported program is in SSA form over its arguments, and so
    are the values it returns. No hypothesis on the program. *)
Theorem C08_imported_program_is_ssa : forall registry p tys ops vs,
  import_program registry p = Some (tys, ops, vs) ->
  ssa (length tys) ops /\ Forall (fun v => In (vid v) (defs (length tys) ops)) vs.
Proof.
  intros registry p tys ops vs Himp.
  destruct (import_program_inv _ _ _ _ _ Himp) as (us & cs & t & sp & ret & s1 & s2 &
    U & Ht & -> & Hp & Hi & Hr & ->).
  apply prologue_wf in Hp.
  destruct (import_nodes_wf _ _ _ _ _ _ _ _ _ _ _ Hp (Forall_nil _) Hi) as (W1 & _ & _).
  destruct (return_wf _ _ _ _ _ _ _ W1 Hr) as (W2 & _ & V2).
  split; [now apply wf_ssa|]. eapply Forall_impl; [|exact V2]. intros v Hv.
  rewrite (wf_defs _ _ W2). apply in_seq. unfold vok in Hv. lia.
Qed.

(** ** C12: the function returns the user outputs, in order. *)
Theorem C12_user_outputs_in_order : forall T W registry p inputs efin outs tys ops vs,
  exported_run T W registry p inputs efin outs ->
  import_program registry p = Some (tys, ops, vs) ->
  exists m, run T W (start T inputs) ops = Some m /\
    Forall2 (fun v x => eget T (m_env T m) (vid v) = Some x) vs outs.
Proof.
  intros T W registry p inputs efin outs tys ops vs Hx Hi.
  destruct (exported_assembled _ _ _ _ _ _ _ _ _ _ Hx Hi) as (b & t & m & _ & _ & _ & _ & R & V & _).
  exists m. split; auto. clear - V. induction V as [|v x vs xs H _ IH]; constructor; auto. apply H.
Qed.
(** Which user outputs are accepted: constants, and any placeholder or call with a type. *)
Lemma find_prod_spec : forall g n nd, NoDup (map n_name g) ->
  (find_prod g n = Some nd <->
   In nd g /\ n_name nd = n /\ (n_op nd = Placeholder \/ exists c, n_op nd = Call c)).
Proof.
  intros g n nd Hn. unfold find_prod. split.
  - intros H. apply find_some in H. destruct H as [H1 H2]. apply andb_true_iff in H2.
    destruct H2 as [H2 H3]. apply String.eqb_eq in H3. repeat split; auto.
    unfold is_producer in H2. destruct (n_op nd); try discriminate; eauto.
  - induction g as [|x g IH]; intros (H1 & H2 & H3); [destruct H1|]. inversion Hn as [|? ? N1 N2]; subst.
    cbn [find]. destruct H1 as [->|H1].
    + rewrite String.eqb_refl. unfold is_producer. destruct H3 as [->|[c ->]]; reflexivity.
    + destruct (String.eqb_spec (n_name x) (n_name nd)) as [E|E].
      * exfalso. apply N1. rewrite E. now apply in_map.
      * rewrite andb_false_r. apply IH; auto.
Qed.
Theorem C12_accepted_outputs : forall g outs i, NoDup (map n_name g) ->
  ((exists r, user_outputs g i outs = Some r) <->
   forall o, In o outs -> os_kind o = OUser ->
     match os_arg o with
     | OTensor n | OSymInt n => exists nd t, In nd g /\ n_name nd = n /\
         (n_op nd = Placeholder \/ exists c, n_op nd = Call c) /\ n_ty nd = Some t
     | OConst _ => True
     | OOther => False
     end).
Proof.
  intros g outs i Hn. revert i. induction outs as [|o outs IH]; intros i; cbn [user_outputs].
  - split; [intros _ o []|intros _; eauto].
  - specialize (IH (S i)). destruct (os_kind o) eqn:K.
    1: { assert (P : forall n, (exists r, (do nd <- find_prod g n; do _ <- n_ty nd;
            do (us, cs) <- user_outputs g (S i) outs; Some (Some n :: us, cs)) = Some r) <->
          (exists nd t, In nd g /\ n_name nd = n /\
            (n_op nd = Placeholder \/ exists c, n_op nd = Call c) /\ n_ty nd = Some t) /\
          exists r, user_outputs g (S i) outs = Some r).
      { intros n. split.
        - intros [r H]. destruct (find_prod g n) as [nd|] eqn:E; [|discriminate]. cbn [obind] in H.
          apply find_prod_spec in E; auto. destruct (n_ty nd) as [t|] eqn:T; [|discriminate]. cbn [obind] in H.
          destruct (user_outputs g (S i) outs) as [r'|] eqn:U; [|discriminate].
          destruct E as (E1 & E2 & E3). split; eauto 10.
        - intros [(nd & t & E1 & E2 & E3 & T) [[us cs] U]].
          rewrite (proj2 (find_prod_spec g n nd Hn)) by auto. cbn [obind]. rewrite T. cbn [obind].
          rewrite U. cbn [obind]. eauto. }
      destruct (os_arg o) as [n|n|v|] eqn:A.
      - rewrite P, IH. split.
        + intros [H1 H2] o' [<-|H] K'; [now rewrite A|now apply H2].
        + intros H. split; [specialize (H o (or_introl eq_refl) K); now rewrite A in H|].
          intros o' H' K'. apply H; simpl; auto.
      - rewrite P, IH. split.
        + intros [H1 H2] o' [<-|H] K'; [now rewrite A|now apply H2].
        + intros H. split; [specialize (H o (or_introl eq_refl) K); now rewrite A in H|].
          intros o' H' K'. apply H; simpl; auto.
      - split.
        + intros [r H]. destruct (user_outputs g (S i) outs) as [r'|] eqn:U; [|discriminate].
          destruct IH as [IH _]. intros o' [<-|H'] K'; [now rewrite A|apply (IH (ex_intro _ r' eq_refl)); auto].
        + intros H. destruct IH as [_ IH]. destruct IH as [[us cs] U].
          { intros o' H' K'. apply H; simpl; auto. }
          rewrite U. cbn [obind]. eauto.
      - split; [intros [r H]; discriminate|]. intros H. specialize (H o (or_introl eq_refl) K).
        now rewrite A in H. }
    all: rewrite IH; split; intros H o' H' K'; [destruct H' as [<-|H']; [congruence|now apply H]|apply H; simpl; auto].
Qed.
(** The argument types: one per user tensor or symbolic integer, mutable exactly when the
    signature mutates it. *)
Theorem C12_argument_types : forall T W registry p inputs efin outs tys ops vs,
  exported_run T W registry p inputs efin outs ->
  import_program registry p = Some (tys, ops, vs) ->
  length tys = length (user_names (pg_ins p)) /\
  forall k n, nth_error (user_names (pg_ins p)) k = Some n ->
    exists nd ty, In nd (pg_graph p) /\ n_name nd = n /\ n_op nd = Placeholder /\
      n_ty nd = Some ty /\
      ((forall o q, ~ input_mutation p o q k) -> nth_error tys k = Some ty) /\
      (forall o q, input_mutation p o q k ->
         (forall o' q', mutation p o' q' -> os_kind o' = OInputMutation ->
            (q' = q \/ os_target o' = n) -> q' = q /\ os_target o' = n) ->
         nth_error tys k = Some (match ty with TyVTensor => TyTensor | _ => ty end)).
Proof.
  intros T W registry p inputs efin outs tys ops vs Hx Hi.
  destruct (exported_assembled _ _ _ _ _ _ _ _ _ _ Hx Hi) as (b & t & m & Hb & Ht & -> & _).
  destruct (tables_start T W p inputs b Hb t Ht) as (T1 & T2 & _).
  split; [now rewrite <- T1, !map_length|]. intros k n Hk. rewrite <- T1, nth_error_map in Hk.
  destruct (nth_error (t_user t) k) as [[n' ty']|] eqn:Ek; [|discriminate]. injection Hk as <-.
  rewrite Forall_forall in T2. destruct (T2 _ (nth_error_In _ _ Ek)) as (nd & ty & F1 & F2 & F3).
  simpl in *. exists nd, ty. destruct (find_ph_In _ _ _ F1) as (G1 & G2 & G3).
  split; auto. split; auto. split; auto. split; auto. clear G2.
  assert (Eu : nth_error (user_names (pg_ins p)) k = Some n') by (now rewrite <- T1, nth_error_map, Ek).
  rewrite nth_error_map, Ek. simpl. rewrite F3. split.
  - intros Hno. rewrite mutated_none; auto. intros o q O1 O2 O3 O4. apply (Hno o q).
    repeat split; auto. congruence.
  - intros o q (O1 & O2 & O3 & O4) Hu. assert (Hn : n' = os_target o) by congruence. rewrite Hn in *.
    rewrite (mutated_unique _ o q); auto.
    + intros o' O1' O2' O3'. apply (Hu o' q); auto. repeat split; auto.
    + intros o' q' O1' O2' O3' O4'. apply (Hu o' q'); auto. repeat split; auto.
Qed.
(** A constant among the user outputs that follows any other kind of output (for instance
    a mutation, which torch.export puts first) makes the import fail with a KeyError: the
    constants are keyed by the index of the output spec but looked up by position. *)
Theorem C12_constant_after_mutation_refuted : forall registry p pre o post l,
  pg_outs p = pre ++ o :: post -> os_kind o = OUser -> os_arg o = OConst l ->
  (exists o', In o' pre /\ os_kind o' <> OUser) ->
  import_program registry p = None.
Proof.
  intros registry p pre o post l Hp Hk Ha (o' & O1 & O2).
  destruct (import_program registry p) as [[[tys ops] vs]|] eqn:E; auto. exfalso.
  destruct (import_program_inv _ _ _ _ _ E) as (us & cs & t & sp & ret & s1 & s2 &
    U & Ht & _ & _ & Hi & Hr & _).
  destruct (return_aligned (pg_graph p) (pg_outs p) 0 0 us cs [] s1 vs s2 U) with (pre := pre) (o := o) (post := post)
    as [_ A]; auto; try (intros k []; fail).
  - unfold const_out. now rewrite Hk, Ha.
  - rewrite forallb_forall in A. specialize (A _ O1). unfold user_out in A. destruct (os_kind o'); congruence.
Qed.

(** ** C10: mutations reach the mutated argument or buffer *)
(** [o] is the only mutation with this producer and the only one with this target. *)
Definition sole_mutation (p : program) (o : ospec) (q : string) : Prop :=
  forall o' q', mutation p o' q' ->
    q' = q \/ (os_kind o' = os_kind o /\ os_target o' = os_target o) ->
    q' = q /\ os_kind o' = os_kind o /\ os_target o' = os_target o.

Lemma user_names_NoDup : forall ins, NoDup (map spec_name ins) -> NoDup (user_names ins).
Proof.
  assert (A : forall ins n, In n (user_names ins) -> In (Some n) (map spec_name ins)).
  { induction ins as [|s r IH]; intros n Hn; auto.
    change (user_names (s :: r)) with ((match i_kind s, i_arg s with
      | IUser, ITensor n | IUser, ISymInt n => [n] | _, _ => [] end) ++ user_names r) in Hn.
    simpl. apply in_app_or in Hn. destruct Hn as [Hn|Hn]; [left|right; auto]. unfold spec_name.
    destruct (i_kind s), (i_arg s); simpl in Hn; try contradiction; destruct Hn as [->|[]]; auto. }
  induction ins as [|s r IH]; intros Hn; [constructor|].
  change (user_names (s :: r)) with ((match i_kind s, i_arg s with
    | IUser, ITensor n | IUser, ISymInt n => [n] | _, _ => [] end) ++ user_names r).
  inversion Hn as [|? ? N1 N2]; subst. specialize (IH N2). unfold spec_name in N1 at 1.
  destruct (i_kind s), (i_arg s); simpl; auto; constructor; auto; intros Hc; apply N1; auto.
Qed.
Lemma hook_input : forall T W p inputs binds t o q k,
  bind_inputs T W p (pg_ins p) inputs = Some binds -> input_tables p = Some t ->
  NoDup (map spec_name (pg_ins p)) -> input_mutation p o q k -> sole_mutation p o q ->
  sget (hooks_of p t) q = Some (HOverwrite k).
Proof.
  intros T W p inputs binds t o q k Hb Ht Hn (O1 & O2 & O3 & O4) Hs.
  destruct (tables_start T W p inputs binds Hb t Ht) as (T1 & _ & _ & _ & _ & _ & T7).
  unfold hooks_of. apply dsets_unique.
  - apply in_or_app. left. apply (uevent_In p t); auto. exists k, (os_target o). rewrite T1.
    split; auto. split; auto. apply mutated_unique; auto.
    + intros o' A1 A2 A3. apply (Hs o' q); auto. repeat split; auto.
    + intros o' q' A1 A2 A3 A4. apply (Hs o' q'); [repeat split; auto|]. right. split; congruence.
  - intros l Hl. apply in_app_or in Hl. destruct Hl as [Hl|Hl].
    + apply (uevent_In p t) in Hl; auto. destruct Hl as (k' & n & -> & K1 & K2).
      destruct (mutated_spec _ _ _ K2) as (o' & A1 & A2 & A3 & A4).
      destruct (Hs o' q) as (_ & _ & A5); auto; [repeat split; auto|].
      rewrite T1 in K1. f_equal. apply (proj1 (NoDup_nth_error _) (user_names_NoDup _ Hn)).
      * apply nth_error_Some. congruence.
      * congruence.
    + apply in_flat_map in Hl. destruct Hl as [x [X1 X2]]. apply T7 in X1.
      destruct X1 as (_ & X3 & _). unfold bevent in X2.
      destruct (snd (snd (snd x))) as [q'|] eqn:Eq; [|contradiction].
      destruct X2 as [[= <- <-]|[]]. symmetry in X3.
      destruct (producers_spec _ _ _ X3) as (o' & A1 & A2 & A3 & A4).
      destruct (Hs o' q') as (_ & A5 & _); auto; [repeat split; auto|congruence].
Qed.
Lemma bind_buffer : forall T W p s ins inputs binds, bind_inputs T W p ins inputs = Some binds ->
  In s ins -> i_kind s = IBuffer -> exists n, i_arg s = ITensor n.
Proof.
  induction ins as [|a r IH]; intros inputs binds Hb Hi Hk; [contradiction|].
  cbn [bind_inputs] in Hb. destruct Hi as [->|Hi].
  - rewrite Hk in Hb. destruct (i_arg s); try discriminate. eauto.
  - destruct (i_kind a), (i_arg a); try discriminate; try destruct inputs; try discriminate;
      repeat match type of Hb with obind ?c _ = _ => destruct c eqn:?; [|discriminate]; cbn [obind] in Hb end;
      eauto.
Qed.
Lemma hook_buffer_event : forall T W p inputs binds t o q,
  bind_inputs T W p (pg_ins p) inputs = Some binds -> input_tables p = Some t ->
  NoDup (map spec_name (pg_ins p)) -> buffer_mutation p o q ->
  (forall o' q', In o' (pg_outs p) -> os_kind o' = OBufferMutation ->
     os_arg o' = OTensor q' -> os_target o' = os_target o -> q' = q) ->
  In (q, HStore (os_target o)) (flat_map bevent (t_buf t)).
Proof.
  intros T W p inputs binds t o q Hb Ht Hn (O1 & O2 & O3 & s & S1 & S2 & S3) Hs.
  destruct (bind_buffer _ _ _ _ _ _ _ Hb S1 S2) as [n Hn'].
  destruct (buffers_spec p _ _ _ Ht Hn) as [B _]. destruct (B s n S1 S2 Hn') as [l Hl].
  apply sget_In in Hl. apply in_flat_map. eexists. split; [exact Hl|].
  unfold bevent. cbn [snd fst]. rewrite S3, (producers_unique _ o q); auto. now left.
Qed.
Lemma hook_buffer : forall T W p inputs binds t o q,
  bind_inputs T W p (pg_ins p) inputs = Some binds -> input_tables p = Some t ->
  NoDup (map spec_name (pg_ins p)) -> buffer_mutation p o q -> sole_mutation p o q ->
  sget (hooks_of p t) q = Some (HStore (os_target o)).
Proof.
  intros T W p inputs binds t o q Hb Ht Hn Hm Hs.
  destruct (tables_start T W p inputs binds Hb t Ht) as (T1 & _ & _ & _ & _ & _ & T7).
  pose proof Hm as (O1 & O2 & O3 & _).
  unfold hooks_of. apply dsets_unique.
  - apply in_or_app. right. eapply hook_buffer_event; eauto.
    intros o' q' A1 A2 A3 A4. apply (Hs o' q'); [repeat split; auto|]. right. split; congruence.
  - intros l Hl. apply in_app_or in Hl. destruct Hl as [Hl|Hl].
    + apply (uevent_In p t) in Hl; auto. destruct Hl as (k' & n & -> & K1 & K2).
      destruct (mutated_spec _ _ _ K2) as (o' & A1 & A2 & A3 & A4).
      destruct (Hs o' q) as (_ & A5 & _); auto; [repeat split; auto|congruence].
    + apply in_flat_map in Hl. destruct Hl as [x [X1 X2]]. apply T7 in X1.
      destruct X1 as (_ & X3 & _). unfold bevent in X2.
      destruct (snd (snd (snd x))) as [q'|] eqn:Eq; [|contradiction].
      destruct X2 as [[= <- <-]|[]]. symmetry in X3.
      destruct (producers_spec _ _ _ X3) as (o' & A1 & A2 & A3 & A4).
      destruct (Hs o' q') as (_ & _ & A5); auto; [repeat split; auto|congruence].
Qed.

Theorem C10_mutated_input_updated : forall T W registry p inputs efin outs tys ops vs o q k x,
  exported_run T W registry p inputs efin outs ->
  import_program registry p = Some (tys, ops, vs) ->
  input_mutation p o q k -> sole_mutation p o q -> sget efin q = Some (FOne x) ->
  exists m, run T W (start T inputs) ops = Some m /\
    mget T (m_mem T m) (HOverwrite k) = Some x.
Proof.
  intros T W registry p inputs efin outs tys ops vs o q k x Hx Hi Hm Hs Hq.
  destruct (exported_assembled _ _ _ _ _ _ _ _ _ _ Hx Hi) as (b & t & m & Hb & Ht & _ & _ & R & _ & A & _).
  exists m. split; auto. eapply A; eauto. eapply hook_input; eauto.
  destruct Hx as (_ & (_ & _ & Hn & _) & _). exact Hn.
Qed.
Theorem C10_mutated_buffer_stored : forall T W registry p inputs efin outs tys ops vs o q x,
  exported_run T W registry p inputs efin outs ->
  import_program registry p = Some (tys, ops, vs) ->
  buffer_mutation p o q -> sole_mutation p o q -> sget efin q = Some (FOne x) ->
  exists m, run T W (start T inputs) ops = Some m /\
    mget T (m_mem T m) (HStore (os_target o)) = Some x.
Proof.
  intros T W registry p inputs efin outs tys ops vs o q x Hx Hi Hm Hs Hq.
  destruct (exported_assembled _ _ _ _ _ _ _ _ _ _ Hx Hi) as (b & t & m & Hb & Ht & _ & _ & R & _ & A & _).
  exists m. split; auto. eapply A; eauto. eapply hook_buffer; eauto.
  destruct Hx as (_ & (_ & _ & Hn & _) & _). exact Hn.
Qed.
Theorem C10_other_inputs_untouched : forall T W registry p inputs efin outs tys ops vs k,
  exported_run T W registry p inputs efin outs ->
  import_program registry p = Some (tys, ops, vs) ->
  (forall o q, ~ input_mutation p o q k) ->
  exists m, run T W (start T inputs) ops = Some m /\
    mget T (m_mem T m) (HOverwrite k) = nth_error inputs k.
Proof.
  intros T W registry p inputs efin outs tys ops vs k Hx Hi Hno.
  destruct (exported_assembled _ _ _ _ _ _ _ _ _ _ Hx Hi) as (b & t & m & Hb & Ht & _ & _ & R & _ & _ & A).
  exists m. split; auto. rewrite A; [apply start_mem|]. intros q Hq.
  destruct (event_mutation T W p inputs b t q _ Hb Ht Hq)
    as [(k' & o & [= <-] & K1 & K2 & K3 & K4 & K5)|(b' & o & [=] & _)].
  apply (Hno o q). repeat split; auto.
Qed.
Theorem C10_other_buffers_untouched : forall T W registry p inputs efin outs tys ops vs b,
  exported_run T W registry p inputs efin outs ->
  import_program registry p = Some (tys, ops, vs) ->
  (forall o q, mutation p o q -> os_kind o = OBufferMutation -> os_target o <> b) ->
  exists m, run T W (start T inputs) ops = Some m /\
    mget T (m_mem T m) (HStore b) = None.
Proof.
  intros T W registry p inputs efin outs tys ops vs b0 Hx Hi Hno.
  destruct (exported_assembled _ _ _ _ _ _ _ _ _ _ Hx Hi) as (b & t & m & Hb & Ht & _ & _ & R & _ & _ & A).
  exists m. split; auto. rewrite A; [apply start_store|]. intros q Hq.
  destruct (event_mutation T W p inputs b t q _ Hb Ht Hq)
    as [(k' & o & [=] & _)|(b' & o & [= <-] & K1 & K2 & K3 & K4 & K5)].
  apply (Hno o q); auto. repeat split; auto.
Qed.

(** ** C11: two mutations sharing a producer *)
Lemma dsets_here : forall A (evs d : list (string * A)) k v, In (k, v) evs ->
  exists v', sget (dsets evs d) k = Some v' /\ In (k, v') evs.
Proof.
  induction evs as [|[k0 x] r IH]; intros d k v Hi; [contradiction|].
  change (dsets ((k0, x) :: r) d) with (dsets r (dset d k0 x)).
  destruct (in_dec string_dec k (map fst r)) as [Hr|Hr].
  - apply in_map_iff in Hr. destruct Hr as [[k1 y] [E1 H1]]. simpl in E1. subst k1.
    destruct (IH (dset d k0 x) k y H1) as (v' & V1 & V2). exists v'. split; auto. now right.
  - destruct Hi as [[= -> ->]|Hi]; [|elim Hr; apply in_map_iff; exists (k, v); auto].
    exists v. split; [|now left]. rewrite dsets_none; [now rewrite sget_dset, String.eqb_refl|].
    intros v' Hv. apply Hr. apply in_map_iff. exists (k, v'). auto.
Qed.
Lemma to_mutate_keys : forall outs, NoDup (map fst (user_inputs_to_mutate outs)).
Proof.
  intros outs. unfold user_inputs_to_mutate.
  assert (A : forall d, NoDup (map fst d) -> NoDup (map fst (fold_left (fun d o =>
    match os_kind o, os_arg o with
    | OInputMutation, OTensor p => dset d p (os_target o) | _, _ => d end) outs d))).
  { induction outs as [|o r IH]; intros d Hd; auto. simpl. apply IH.
    destruct (os_kind o); auto. destruct (os_arg o); auto. now apply dset_keys. }
  apply A. constructor.
Qed.
Lemma to_mutate_last : forall a o q b d, os_kind o = OInputMutation -> os_arg o = OTensor q ->
  (forall o', In o' b -> os_kind o' = OInputMutation -> os_arg o' <> OTensor q) ->
  sget (fold_left (fun d o => match os_kind o, os_arg o with
                        | OInputMutation, OTensor p => dset d p (os_target o)
                        | _, _ => d end) (a ++ o :: b) d) q = Some (os_target o).
Proof.
  intros a o q b d Hk Ha Hb. rewrite fold_left_app. simpl. rewrite Hk, Ha.
  match goal with |- sget (fold_left _ b (dset ?d0 _ _)) _ = _ => generalize d0 as e end.
  intros e. assert (Hs : sget (dset e q (os_target o)) q = Some (os_target o))
    by (now rewrite sget_dset, String.eqb_refl).
  revert Hs. generalize (dset e q (os_target o)) as f. clear e. induction b as [|x r IH]; intros f Hf; auto.
  simpl. apply IH; [intros; apply Hb; auto; now right|].
  specialize (Hb x (or_introl eq_refl)). destruct (os_kind x); auto. destruct (os_arg x) as [z|z|z|]; auto.
  rewrite sget_dset. destruct (String.eqb_spec z q); auto. subst. now elim Hb.
Qed.
(** The last mutation wins: an argument whose new value is also assigned to a later target
    keeps its old contents. *)
Theorem C11_two_inputs_one_producer_refuted :
  forall T W registry p inputs efin outs tys ops vs a o1 b o2 c q k1,
  exported_run T W registry p inputs efin outs ->
  import_program registry p = Some (tys, ops, vs) ->
  pg_outs p = a ++ o1 :: b ++ o2 :: c ->
  input_mutation p o1 q k1 ->
  os_kind o2 = OInputMutation -> os_arg o2 = OTensor q -> os_target o2 <> os_target o1 ->
  (forall o', In o' c -> os_kind o' = OInputMutation -> os_arg o' <> OTensor q) ->
  (forall o' q', mutation p o' q' -> os_kind o' = OInputMutation ->
     os_target o' = os_target o1 -> q' = q) ->
  exists m, run T W (start T inputs) ops = Some m /\
    mget T (m_mem T m) (HOverwrite k1) = nth_error inputs k1.
Proof.
  intros T W registry p inputs efin outs tys ops vs a o1 b o2 c q k1 Hx Hi Ho (O1 & O2 & O3 & O4)
    Hk Ha Hne Hlast Hsole.
  destruct (exported_assembled _ _ _ _ _ _ _ _ _ _ Hx Hi) as (bi & t & m & Hb & Ht & _ & _ & R & _ & _ & A).
  exists m. split; auto. rewrite A; [apply start_mem|]. intros q' Hq.
  destruct (event_mutation T W p inputs bi t q' _ Hb Ht Hq)
    as [(k' & o & [= <-] & K1 & K2 & K3 & K4 & K5)|(b' & o & [=] & _)].
  assert (Et : os_target o = os_target o1) by congruence.
  assert (q' = q) by (apply (Hsole o q'); auto; repeat split; auto). subst q'.
  rewrite mutated_eq in K2. apply dsets_In in K2. destruct K2 as [K2|]; [|discriminate].
  apply in_map_iff in K2. destruct K2 as [[q1 t1] [[= -> ->] K2]].
  assert (Hq2 : sget (user_inputs_to_mutate (pg_outs p)) q = Some (os_target o2)).
  { rewrite Ho. unfold user_inputs_to_mutate.
    replace (a ++ o1 :: b ++ o2 :: c) with ((a ++ o1 :: b) ++ o2 :: c) by (now rewrite <- app_assoc).
    now apply to_mutate_last. }
  apply In_sget in K2; [congruence|]. apply to_mutate_keys.
Qed.
(** An argument and a buffer sharing a producer: only the buffer is updated. *)
Theorem C11_input_and_buffer_one_producer_refuted :
  forall T W registry p inputs efin outs tys ops vs o1 o2 q k1,
  exported_run T W registry p inputs efin outs ->
  import_program registry p = Some (tys, ops, vs) ->
  input_mutation p o1 q k1 -> buffer_mutation p o2 q ->
  (forall o' q', mutation p o' q' -> os_target o' = os_target o1 \/ os_target o' = os_target o2 ->
     q' = q) ->
  exists m, run T W (start T inputs) ops = Some m /\
    mget T (m_mem T m) (HOverwrite k1) = nth_error inputs k1.
Proof.
  intros T W registry p inputs efin outs tys ops vs o1 o2 q k1 Hx Hi (O1 & O2 & O3 & O4) Hb2 Hsole.
  destruct (exported_assembled _ _ _ _ _ _ _ _ _ _ Hx Hi) as (bi & t & m & Hb & Ht & _ & _ & R & _ & _ & A).
  exists m. split; auto. rewrite A; [apply start_mem|]. intros q' Hq.
  destruct (event_mutation T W p inputs bi t q' _ Hb Ht Hq)
    as [(k' & o & [= <-] & K1 & K2 & K3 & K4 & K5)|(b' & o & [=] & _)].
  assert (Et : os_target o = os_target o1) by congruence.
  assert (q' = q) by (apply (Hsole o q'); auto; repeat split; auto). subst q'.
  assert (He : In (q, HStore (os_target o2)) (flat_map bevent (t_buf t))).
  { eapply hook_buffer_event; eauto.
    - destruct Hx as (_ & (_ & _ & Hn & _) & _). exact Hn.
    - intros o' q' A1 A2 A3 A4. apply (Hsole o' q'); auto. repeat split; auto. }
  unfold hooks_of, dsets in Hq. rewrite fold_left_app in Hq.
  match type of Hq with sget (fold_left _ _ ?d) _ = _ => destruct (dsets_here _ _ d _ _ He) as (v & V1 & V2) end.
  unfold dsets in V1. rewrite V1 in Hq. injection Hq as ->.
  apply in_flat_map in V2. destruct V2 as [x [X1 X2]]. unfold bevent in X2.
  destruct (snd (snd (snd x))) as [q'|]; [|contradiction]. destruct X2 as [[=]|[]].
Qed.

(** ** C09: lifted parameters and buffers are loaded at most once *)
Theorem C09_loaded_at_most_once : forall registry p tys ops vs id s n,
  import_program registry p = Some (tys, ops, vs) ->
  lifted_only registry p id s -> i_kind s = IParam \/ i_kind s = IBuffer -> i_arg s = ITensor n ->
  loads id ops <= 1.
Proof.
  intros registry p tys ops vs id s n Himp Hl Hk Ha.
  destruct (import_program_inv _ _ _ _ _ Himp) as (us & cs & t & sp & ret & s1 & s2 &
    U & Ht & _ & Hp & Hi & Hr & ->).
  destruct (prologue_lifted registry p id s n Hl Hk Ha t sp Ht Hp) as (P1 & P2 & _).
  destruct (import_steps registry p id s Hl (fun _ => True) ret sp s1 cs us 0 s2 vs 0) as [S1 S2]; auto.
  apply steps_loads in S1. apply steps_loads in S2. lia.
Qed.
(** Not at all if neither a call nor a user output mentions it. *)
Theorem C09_unused_is_not_loaded : forall registry p tys ops vs id s n b,
  import_program registry p = Some (tys, ops, vs) -> NoDup (map spec_name (pg_ins p)) ->
  lifted_only registry p id s -> i_kind s = IParam \/ i_kind s = IBuffer -> i_arg s = ITensor n ->
  spec_lit p s = Some (LTensor id b) ->
  ~ used_by_call p n -> ~ returned p n ->
  loads id ops = 0.
Proof.
  intros registry p tys ops vs id s n b Himp Hnd Hl Hk Ha Hs Hu Hret.
  destruct (import_program_inv _ _ _ _ _ Himp) as (us & cs & t & sp & ret & s1 & s2 &
    U & Ht & _ & Hp & Hi & Hr & ->).
  destruct (prologue_lifted registry p id s n Hl Hk Ha t sp Ht Hp) as (P1 & P2 & P3).
  assert (Hus : forall k, In (Some k) us -> returned p k).
  { clear - U. revert U. unfold returned. generalize 0 as i. revert us cs.
    induction (pg_outs p) as [|x r IH]; intros us cs i U k Hin; cbn [user_outputs] in U.
    - injection U as <- <-. contradiction.
    - assert (Up : (exists o, In o r /\ os_kind o = OUser /\ (os_arg o = OTensor k \/ os_arg o = OSymInt k)) ->
        exists o, In o (x :: r) /\ os_kind o = OUser /\ (os_arg o = OTensor k \/ os_arg o = OSymInt k)).
      { intros (o & O1 & O2). exists o. split; auto. now right. }
      destruct (os_kind x) eqn:Ek; [|eauto..].
      destruct (os_arg x) as [z|z|z|] eqn:Ea; try discriminate;
        repeat match type of U with obind ?c _ = _ => destruct c as [[? ?]|] eqn:?; [|discriminate]; cbn [obind] in U
                 | obind ?c _ = _ => destruct c eqn:?; [|discriminate]; cbn [obind] in U end;
        injection U as <- <-; destruct Hin as [Hin|Hin]; eauto; try discriminate; injection Hin as ->;
        exists x; (split; [now left|auto]). }
  destruct (import_steps registry p id s Hl (fun k => k <> n) ret sp s1 cs us 0 s2 vs 0) as [S1 S2]; auto.
  { intros nd a k H1 H2 H3 ->. apply Hu. exists nd, a. auto. }
  { intros k H1 ->. apply Hret. auto. }
  specialize (P3 Hnd _ Hs eq_refl).
  pose proof (prologue_lazy p _ _ Ht Hp Hnd s n _ (proj1 Hl) Ha Hs Hk) as Hv.
  pose proof (steps_lazy _ _ _ _ _ S2 (steps_lazy _ _ _ _ _ S1 Hv)) as Hv2.
  apply steps_loads in S1. apply steps_loads in S2.
  pose proof (pending_lazy _ _ _ _ Hv2). lia.
Qed.
(** Exactly once if it is returned, or is a positional operand of an operator call. *)
Theorem C09_used_is_loaded_once : forall registry p tys ops vs id s n b,
  import_program registry p = Some (tys, ops, vs) -> NoDup (map spec_name (pg_ins p)) ->
  lifted_only registry p id s -> i_kind s = IParam \/ i_kind s = IBuffer -> i_arg s = ITensor n ->
  spec_lit p s = Some (LTensor id b) ->
  returned p n \/
  (exists nd sch sch' i, In nd (pg_graph p) /\ n_op nd = Call (TConcrete sch) /\
     pick_schema (g_scalar (pg_graph p)) registry sch (n_args nd) = Some sch' /\
     nth_error (n_args nd) i = Some (ANode n) /\ i < length (s_params sch')) ->
  loads id ops = 1.
Proof.
  intros registry p tys ops vs id s n b Himp Hnd Hl Hk Ha Hs Hu.
  destruct (import_program_inv _ _ _ _ _ Himp) as (us & cs & t & sp & ret & s1 & s2 &
    U & Ht & _ & Hp & Hi & Hr & ->).
  destruct (prologue_lifted registry p id s n Hl Hk Ha t sp Ht Hp) as (P1 & P2 & P3).
  specialize (P3 Hnd _ Hs eq_refl).
  destruct (import_steps registry p id s Hl (fun _ => True) ret sp s1 cs us 0 s2 vs 0) as [S1 S2]; auto.
  pose proof (prologue_inv registry p id s n Hl Hk Ha t sp Ht Hp) as I0.
  pose proof (steps_inv _ _ _ _ _ _ S2 (steps_inv _ _ _ _ _ _ S1 I0)) as I2.
  assert (Hf : exists v, vget (s_vals s2) (n, 0) = Some (BVal v)).
  { destruct Hu as [Hu|(nd & sch & sch' & i & H1 & H2 & H3 & H4 & H5)].
    - eapply return_forces; eauto.
    - destruct (call_forces registry p n _ _ _ Hi _ _ _ _ H1 H2 H3 H4 H5) as [v Hv].
      exists v. eapply steps_val; eauto. }
  destruct Hf as [v Hv]. pose proof (forced_pending _ _ _ _ I2 Hv).
  apply steps_loads in S1. apply steps_loads in S2. lia.
Qed.
(** Every later use of a resolved node is the same value, and adds no operation. *)
Theorem C09_later_uses_share_the_value : forall Lid okf n i s v s1 s2,
  resolve n i s = Some (v, s1) -> steps Lid okf s1 s2 -> resolve n i s2 = Some (v, s2).
Proof.
  intros Lid okf n i s v s1 s2 H St. unfold resolve.
  assert (Hv : vget (s_vals s1) (n, i) = Some (BVal v)).
  { unfold resolve in H. destruct (vget (s_vals s) (n, i)) as [[x|l|]|] eqn:E; try discriminate.
    - injection H as <- <-. auto.
    - destruct (import_literal l s) as [[x s3]|] eqn:E1; [|discriminate]. cbn [obind] in H.
      injection H as <- <-. simpl. destruct (import_literal_shape _ _ _ _ E1) as (k & _ & _ & _ & Hv).
      rewrite Hv. clear - E. induction (s_vals s) as [|[k0 b0] r IH]; [discriminate|].
      rewrite vget_cons in E. simpl. destruct (keyb k0 (n, i)) eqn:Ek; simpl; rewrite ?Ek; auto. }
  now rewrite (steps_val _ _ _ _ St _ _ Hv).
Qed.

(** ** Non-vacuity: a program with a constant output, a parameter that is used and returned,
    an unused parameter, a mutated buffer and a mutated input. *)
Section Example.
Local Open Scope string_scope.
Definition ex_ph n := ex_nd n Placeholder [] (Some TyVTensor) None false.
Definition ex_call n a b := ex_nd n (Call (TConcrete ex_mul)) [ANode a; ANode b] (Some TyVTensor) None false.
Definition ex_prog : program := Prog
  [ex_ph "p_w"; ex_ph "p_u"; ex_ph "b_c"; ex_ph "x"; ex_ph "y"; ex_call "m" "x" "p_w"; ex_call "k" "b_c" "y"]
  [IS IParam (ITensor "p_w") "w" true; IS IParam (ITensor "p_u") "u" true;
   IS IBuffer (ITensor "b_c") "c" true;
   IS IUser (ITensor "x") "" true; IS IUser (ITensor "y") "" true]
  [OS OUser (OConst (LInt 7)) ""; OS OBufferMutation (OTensor "k") "c";
   OS OInputMutation (OTensor "m") "x"; OS OUser (OTensor "y") ""; OS OUser (OTensor "p_w") ""]
  [("w", LTensor 3 false); ("u", LTensor 5 false); ("c", LTensor 4 false)] [].
Ltac each H := simpl in H; repeat destruct H as [<-|H]; try contradiction.
Lemma ex_prog_ok : exists efin, exported_run Z ex_W ex_reg ex_prog [RT 10%Z; RT 20%Z] efin [RInt 7; RT 20%Z; RT 3%Z].
Proof.
  eexists. split; [|split; [|split; [|split; [|vm_compute; reflexivity]]]].
  - split; [|split; [|split; [|split]]].
    + intros id. change (Some [RT (Z.of_nat id + 11 - bool_code)%Z] = Some [RT (Z.of_nat id)]).
      replace (Z.of_nat id + 11 - bool_code)%Z with (Z.of_nat id); [reflexivity|].
      unfold bool_code. lia.
    + intros sch v sch' (n & Hn & Hu) Hv Hr.
      assert (Hs : sch = ex_mul).
      { destruct Hu as [Hu|[Hu|(sch0 & a & kw & Hu & Hc)]]; each Hn; simpl in Hu; try discriminate; congruence. }
      subst sch. cbn in Hv. injection Hv as <-. cbn in Hr. injection Hr as <-.
      repeat split; auto.
      * repeat eexists.
      * intros x s r Hs. destruct x, s, r; try discriminate; reflexivity.
    + intros n sch a kw sch' e rs Hn Ho Hc He. each Hn; discriminate.
    + intros n sch Hn Ho Hc. each Hn; discriminate.
    + intros n Hn. split; [|split].
      * intros sch a kw sch' sch'' Ho. each Hn; discriminate.
      * intros sch sch' Ho Hp (i & q & mm & Hi & Hq & [Ha|[_ Ha]] & Hg); each Hn; simpl in Ho; try discriminate;
        injection Ho as <-; cbn in Hp; injection Hp as <-; try discriminate;
        destruct i as [|[|i]]; simpl in Ha; try discriminate; try (injection Ha as <-; discriminate);
        destruct i; discriminate.
      * intros sch Ho. each Hn; discriminate.
  - split; [|split; [|split]].
    + repeat (constructor; [simpl; intuition discriminate|]). constructor.
    + exists [ex_ph "p_w"; ex_ph "p_u"; ex_ph "b_c"; ex_ph "x"; ex_ph "y"], [ex_call "m" "x" "p_w"; ex_call "k" "b_c" "y"].
      repeat split; reflexivity.
    + repeat (constructor; [simpl; intuition discriminate|]). constructor.
    + repeat (constructor; [simpl; intuition discriminate|]). constructor.
  - intros o q (Ho & Hk & Ha). each Ho; simpl in Hk, Ha; destruct Hk as [Hk|Hk]; try discriminate; injection Ha as <-.
    + exists (ex_call "k" "b_c" "y"), (TConcrete ex_mul). repeat split; auto. simpl. tauto.
    + exists (ex_call "m" "x" "p_w"), (TConcrete ex_mul). repeat split; auto. simpl. tauto.
  - intros n f Hn Hf. each Hn; vm_compute in Hf; injection Hf as <-; simpl; repeat split; try discriminate;
    intros; simpl in *; repeat match goal with H : Some _ = Some _ |- _ => injection H; clear H; intros; subst end;
    simpl; auto; try discriminate.
Qed.
Lemma ex_lifted : forall id t n, In (id, t, n) [(3, "w", "p_w"); (5, "u", "p_u"); (4, "c", "b_c")] ->
  lifted_only ex_reg ex_prog id (IS (if Nat.eqb id 4 then IBuffer else IParam) (ITensor n) t true).
Proof.
  assert (R : forall k sch l, ex_reg k = Some sch -> In l (schema_lits sch) -> False).
  { intros k sch l. unfold ex_reg. destruct (String.eqb k _); intros [= <-] []. }
  intros id t n [[= <- <- <-]|[[= <- <- <-]|[[= <- <- <-]|[]]]];
  (split; [simpl; tauto|split; [|split; [|split; [|split; [|split]]]]];
   [ intros s' l Hs Hl Ho; each Hs; vm_compute in Hl; try discriminate; injection Hl as <-;
       simpl in Ho; try discriminate; reflexivity
   | intros nd a l Hn Ha Hl; each Hn; each Ha; each Hl
   | intros nd l Hn Ho; each Hn; discriminate
   | intros nd sch l Hn Ho Hl; each Hn; destruct Ho as [Ho|Ho]; try discriminate; injection Ho as <-; contradiction
   | intros k sch l H1 H2; elim (R k sch l H1 H2)
   | intros o l Ho Ha; each Ho; simpl in Ha; try discriminate; injection Ha as <-; simpl; tauto ]).
Qed.
Example C08_nonvacuous : exists tys ops vs, import_program ex_reg ex_prog = Some (tys, ops, vs) /\
  tys = [TyTensor; TyVTensor] /\ length ops = 8.
Proof. eexists _, _, _. vm_compute. repeat split. Qed.
Example C09_nonvacuous : exists tys ops vs, import_program ex_reg ex_prog = Some (tys, ops, vs) /\
  NoDup (map spec_name (pg_ins ex_prog)) /\
  lifted_only ex_reg ex_prog 3 (IS IParam (ITensor "p_w") "w" true) /\ returned ex_prog "p_w" /\
  lifted_only ex_reg ex_prog 5 (IS IParam (ITensor "p_u") "u" true) /\
  ~ used_by_call ex_prog "p_u" /\ ~ returned ex_prog "p_u" /\
  lifted_only ex_reg ex_prog 4 (IS IBuffer (ITensor "b_c") "c" true) /\
  loads 3 ops = 1 /\ loads 4 ops = 1 /\ loads 5 ops = 0.
Proof.
  eexists _, _, _. split; [vm_compute; reflexivity|].
  split; [repeat (constructor; [simpl; intuition discriminate|]); constructor|].
  split; [apply (ex_lifted 3 "w"); simpl; auto|].
  split; [exists (OS OUser (OTensor "p_w") ""); simpl; tauto|].
  split; [apply (ex_lifted 5 "u"); simpl; auto|].
  split; [intros (nd & a & Hn & Ha & Hi); each Hn; each Ha; simpl in Hi; intuition discriminate|].
  split; [intros (o & Ho & Hk & Ha); each Ho; simpl in Hk, Ha; intuition discriminate|].
  split; [apply (ex_lifted 4 "c"); simpl; auto|]. repeat split; reflexivity.
Qed.
Lemma ex_sole : forall o q, mutation ex_prog o q -> sole_mutation ex_prog o q.
Proof.
  intros o q (Ho & Hk & Ha) o' q' (Ho' & Hk' & Ha') Hs.
  each Ho; simpl in Hk, Ha; destruct Hk as [Hk|Hk]; try discriminate; injection Ha as <-;
  each Ho'; simpl in Hk', Ha'; destruct Hk' as [Hk'|Hk']; try discriminate; injection Ha' as <-;
  simpl in *; intuition discriminate.
Qed.
Example C10_nonvacuous : exists efin tys ops vs m,
  exported_run Z ex_W ex_reg ex_prog [RT 10%Z; RT 20%Z] efin [RInt 7; RT 20%Z; RT 3%Z] /\
  import_program ex_reg ex_prog = Some (tys, ops, vs) /\
  input_mutation ex_prog (OS OInputMutation (OTensor "m") "x") "m" 0 /\
  sole_mutation ex_prog (OS OInputMutation (OTensor "m") "x") "m" /\
  buffer_mutation ex_prog (OS OBufferMutation (OTensor "k") "c") "k" /\
  sole_mutation ex_prog (OS OBufferMutation (OTensor "k") "c") "k" /\
  (forall o q, ~ input_mutation ex_prog o q 1) /\
  run Z ex_W (start Z [RT 10%Z; RT 20%Z]) ops = Some m /\
  mget Z (m_mem Z m) (HOverwrite 0) = Some (RT 30%Z) /\
  mget Z (m_mem Z m) (HOverwrite 1) = Some (RT 20%Z) /\
  mget Z (m_mem Z m) (HStore "c") = Some (RT 80%Z).
Proof.
  destruct ex_prog_ok as [efin Hx]. exists efin. eexists _, _, _, _. split; [exact Hx|].
  split; [vm_compute; reflexivity|]. split; [simpl; repeat split; simpl; auto|].
  split; [apply ex_sole; simpl; repeat split; simpl; auto|].
  split; [repeat split; [simpl; auto|]; exists (IS IBuffer (ITensor "b_c") "c" true); simpl; auto|].
  split; [apply ex_sole; simpl; repeat split; simpl; auto|].
  split; [intros o q (Ho & Hk & Ha & He); each Ho; simpl in *; discriminate|].
  split; [vm_compute; reflexivity|]. repeat split; reflexivity.
Qed.
Example C12_nonvacuous : exists efin tys ops vs m,
  exported_run Z ex_W ex_reg ex_prog [RT 10%Z; RT 20%Z] efin [RInt 7; RT 20%Z; RT 3%Z] /\
  import_program ex_reg ex_prog = Some (tys, ops, vs) /\
  run Z ex_W (start Z [RT 10%Z; RT 20%Z]) ops = Some m /\
  map (fun v => eget Z (m_env Z m) (vid v)) vs = [Some (RInt 7); Some (RT 20%Z); Some (RT 3%Z)].
Proof.
  destruct ex_prog_ok as [efin Hx]. exists efin. eexists _, _, _, _. split; [exact Hx|].
  split; [vm_compute; reflexivity|]. split; [vm_compute; reflexivity|]. reflexivity.
Qed.
(** C12 refuted on a runnable program: a mutation, then a constant output. *)
Definition ex_const : program := Prog
  [ex_ph "x"; ex_ph "y"; ex_call "m" "x" "y"]
  [IS IUser (ITensor "x") "" true; IS IUser (ITensor "y") "" true]
  [OS OInputMutation (OTensor "m") "x"; OS OUser (OConst (LInt 7)) ""] [] [].
Example C12_refuted_nonvacuous : 
  (exists efin, program_run Z ex_W ex_const [RT 1%Z; RT 2%Z] = Some (efin, [RInt 7])) /\
  import_program ex_reg ex_const = None.
Proof. split; [eexists|]; vm_compute; reflexivity. Qed.

(** ** C10 refuted: a mutation whose producer is itself a program input is lost when that
    input comes first (its value is bound before the hook is registered). *)
Definition ex_swap : program := Prog
  [ex_ph "y"; ex_ph "x"; ex_call "m" "x" "y"]
  [IS IUser (ITensor "y") "" true; IS IUser (ITensor "x") "" true]
  [OS OInputMutation (OTensor "y") "x"; OS OUser (OTensor "m") ""] [] [].
Theorem C10_placeholder_producer_refuted : exists efin outs tys ops vs m,
  export_ok ex_swap /\ input_mutation ex_swap (OS OInputMutation (OTensor "y") "x") "y" 1 /\
  sole_mutation ex_swap (OS OInputMutation (OTensor "y") "x") "y" /\
  program_run Z ex_W ex_swap [RT 1%Z; RT 2%Z] = Some (efin, outs) /\
  sget efin "y" = Some (FOne (RT 1%Z)) /\
  import_program ex_reg ex_swap = Some (tys, ops, vs) /\
  run Z ex_W (start Z [RT 1%Z; RT 2%Z]) ops = Some m /\
  mget Z (m_mem Z m) (HOverwrite 1) = Some (RT 2%Z).
Proof.
  eexists _, _, _, _, _, _. split; [|split; [|split; [|split; [vm_compute; reflexivity|
    split; [reflexivity|split; [vm_compute; reflexivity|split; [vm_compute; reflexivity|reflexivity]]]]]]].
  - split; [repeat (constructor; [simpl; intuition discriminate|]); constructor|]. split.
    + exists [ex_ph "y"; ex_ph "x"], [ex_call "m" "x" "y"]. repeat split; reflexivity.
    + split; repeat (constructor; [simpl; intuition discriminate|]); constructor.
  - simpl. repeat split; simpl; auto.
  - intros o' q' (Ho & Hk & Ha) _. each Ho; simpl in *; [injection Ha as <-; auto|].
    destruct Hk; discriminate.
Qed.
(** C11 on a runnable program: both arguments should become [x * y]; the first keeps its
    contents. *)
Definition ex_two : program := Prog
  [ex_ph "x"; ex_ph "y"; ex_call "m" "x" "y"]
  [IS IUser (ITensor "x") "" true; IS IUser (ITensor "y") "" true]
  [OS OInputMutation (OTensor "m") "x"; OS OInputMutation (OTensor "m") "y"; OS OUser (OTensor "m") ""] [] [].
Example C11_nonvacuous : exists efin tys ops vs m,
  exported_run Z ex_W ex_reg ex_two [RT 3%Z; RT 4%Z] efin [RT 12%Z] /\
  import_program ex_reg ex_two = Some (tys, ops, vs) /\
  input_mutation ex_two (OS OInputMutation (OTensor "m") "x") "m" 0 /\
  input_mutation ex_two (OS OInputMutation (OTensor "m") "y") "m" 1 /\
  sget efin "m" = Some (FOne (RT 12%Z)) /\
  run Z ex_W (start Z [RT 3%Z; RT 4%Z]) ops = Some m /\
  mget Z (m_mem Z m) (HOverwrite 0) = Some (RT 3%Z) /\
  mget Z (m_mem Z m) (HOverwrite 1) = Some (RT 12%Z).
Proof.
  exists (match program_run Z ex_W ex_two [RT 3%Z; RT 4%Z] with Some (e, _) => e | None => [] end).
  eexists _, _, _, _. split; [|split; [vm_compute; reflexivity|split; [|split; [|split; [reflexivity|
    split; [vm_compute; reflexivity|split; reflexivity]]]]]].
  - split; [|split; [|split; [|split; [|vm_compute; reflexivity]]]].
    + destruct ex_prog_ok as (e & (H1 & _) & _).
      split; [exact H1|split; [|split; [|split]]].
      * intros sch v sch' (n & Hn & Hu) Hv Hr.
        assert (Hs : sch = ex_mul).
        { destruct Hu as [Hu|[Hu|(sch0 & a & kw & Hu & Hc)]]; each Hn; simpl in Hu; try discriminate; congruence. }
        subst sch. cbn in Hv. injection Hv as <-. cbn in Hr. injection Hr as <-.
        repeat split; auto.
        -- repeat eexists.
        -- intros x s r Hs. destruct x, s, r; try discriminate; reflexivity.
      * intros n sch a kw sch' e0 rs Hn Ho Hc He. each Hn; discriminate.
      * intros n sch Hn Ho Hc. each Hn; discriminate.
      * intros n Hn. split; [|split].
        -- intros sch a kw sch' sch'' Ho. each Hn; discriminate.
        -- intros sch sch' Ho Hp (i & q & mm & Hi & Hq & [Ha|[_ Ha]] & Hg); each Hn; simpl in Ho; try discriminate;
           injection Ho as <-; cbn in Hp; injection Hp as <-; try discriminate;
           destruct i as [|[|i]]; simpl in Ha; try discriminate; try (injection Ha as <-; discriminate);
           destruct i; discriminate.
        -- intros sch Ho. each Hn; discriminate.
    + split; [repeat (constructor; [simpl; intuition discriminate|]); constructor|]. split.
      * exists [ex_ph "x"; ex_ph "y"], [ex_call "m" "x" "y"]. repeat split; reflexivity.
      * split; repeat (constructor; [simpl; intuition discriminate|]); constructor.
    + intros o q (Ho & Hk & Ha). each Ho; simpl in Hk, Ha; destruct Hk as [Hk|Hk]; try discriminate; injection Ha as <-;
      (exists (ex_call "m" "x" "y"), (TConcrete ex_mul); repeat split; auto; simpl; tauto).
    + intros n f Hn Hf. each Hn; vm_compute in Hf; injection Hf as <-; simpl; repeat split; try discriminate;
      intros; simpl in *; repeat match goal with H : Some _ = Some _ |- _ => injection H; clear H; intros; subst end;
      simpl; auto; try discriminate.
  - simpl. repeat split; simpl; auto.
  - simpl. repeat split; simpl; auto.
Qed.
End Example.

Print Assumptions C08_imported_program_is_ssa.
Print Assumptions C09_loaded_at_most_once.
Print Assumptions C09_unused_is_not_loaded.
Print Assumptions C09_used_is_loaded_once.
Print Assumptions C09_later_uses_share_the_value.
Print Assumptions C10_mutated_input_updated.
Print Assumptions C10_mutated_buffer_stored.
Print Assumptions C10_other_inputs_untouched.
Print Assumptions C10_other_buffers_untouched.
Print Assumptions C10_placeholder_producer_refuted.
Print Assumptions C11_two_inputs_one_producer_refuted.
Print Assumptions C11_input_and_buffer_one_producer_refuted.
Print Assumptions C12_user_outputs_in_order.
Print Assumptions C12_argument_types.
Print Assumptions C12_constant_after_mutation_refuted.
Print Assumptions C12_accepted_outputs.
