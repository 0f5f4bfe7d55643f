(** The interpretation of list operations within a block. *)
From Coq Require Import Bool PeanoNat ZArith Lia List.
From Verif Require Import Prelude ListInterpModel ListInterpSpec ListInterpProofs.
Import ListNotations.
Open Scope nat_scope.

Lemma interpreted_first us : firstn (List.length (interpreted us)) us = interpreted us /\ Forall (fun u => u <> UInner true true) (interpreted us).
Proof.
  induction us as [|u us [IH1 IH2]]; [split; [reflexivity|constructor]|].
  assert (K : u <> UInner true true -> interpreted (u :: us) = u :: interpreted us). { destruct u as [| | |[|] [|]]; try reflexivity. intros Z. contradiction Z. reflexivity. }
  assert (Dec : u = UInner true true \/ u <> UInner true true) by (destruct u as [| | |[|] [|]]; try (right; discriminate); left; reflexivity).
  destruct Dec as [->|N]; [split; [reflexivity|constructor]|]. rewrite (K N). cbn [List.length firstn]. rewrite IH1. split; [reflexivity|constructor; assumption].
Qed.
Section Meaning.
Context {D : Type} (computes : nat -> list (arg D) -> option (datum D * (nat -> list (datum D)))).
Lemma run_app p q e m : run computes (p ++ q) e m = (do (e1, m1) <- run computes p e m ; run computes q e1 m1).
Proof. revert e m. induction p as [|o p IH]; intros e m; cbn [run app]; [reflexivity|]. destruct (step computes o e m) as [[e1 m1]|]; [|reflexivity]. cbn [obind]. apply IH. Qed.
Lemma run_fresh n prog (UD : NoDup (flat_map result prog)) : forall p rest e m e1 m1, incl p prog -> fresh_program (p ++ rest) n e m -> ints prog e -> run computes p e m = Some (e1, m1) -> fresh_program rest n e1 m1 /\ ints prog e1.
Proof.
  induction p as [|o p IH]; intros rest e m e1 m1 Ip F In0 H; cbn [run app] in *; [injection H as <- <-; split; assumption|].
  destruct (step computes o e m) as [[e2 m2]|] eqn:S1; [|discriminate]. cbn [obind] in H. destruct (fresh_step computes n o (p ++ rest) e m e2 m2 F S1) as (F2 & _ & _).
  apply (IH rest e2 m2 e1 m1); [intros x Ix; apply Ip; right; exact Ix|exact F2|exact (ints_step computes n prog UD o (p ++ rest) e m e2 m2 (Ip o (or_introl eq_refl)) F In0 S1)|exact H].
Qed.
(** If nothing else comes to hold the list, the new program gives every other value the same contents, leaves every other list the same, and leaves in the last list what the old one left in the list *)
Theorem C126_meaning pre l els post n post' last (e : env D) m e2 m2 :
  let prog := pre ++ Make l els :: post in
  fresh_program prog n e m -> (forall o, In o post -> ~ holds l o) -> interpret prog l els post n = Gives post' last -> run computes prog e m = Some (e2, m2) ->
  exists e2' m2', run computes (pre ++ post') e m = Some (e2', m2') /\ (forall v, v < n -> v <> l -> e2' v = e2 v) /\ (forall a, a < n -> a <> l -> m2' a = m2 a)
    /\ e2' last = Some (Ref last) /\ m2' last = m2 l.
Proof.
  intros prog F Nh G H. unfold prog in H. rewrite run_app in H. destruct (run computes pre e m) as [[e1 m1]|] eqn:R1; [|discriminate]. cbn [obind] in H.
  assert (UD : NoDup (flat_map result prog)) by exact (proj1 F). assert (Ip : incl pre prog) by (intros x Ix; apply in_or_app; left; exact Ix).
  assert (I0 : ints prog e). { intros v z x Iv Hx. exfalso. destruct F as (_ & Fr & _). assert (Ik : In v (flat_map result prog)) by (apply in_flat_map; exists (Int v z); split; [exact Iv|left; reflexivity]). destruct (Fr v Ik) as (_ & Z & _). congruence. }
  destruct (run_fresh n prog UD pre (Make l els :: post) e m e1 m1 Ip F I0 R1) as [F1 I1]. cbn [run] in H. destruct (step computes (Make l els) e1 m1) as [[e3 m3]|] eqn:S1; [|discriminate]. cbn [obind] in H.
  assert (Im : In (Make l els) prog) by (apply in_or_app; right; left; reflexivity).
  pose proof (ints_step computes n prog UD _ _ _ _ _ _ Im F1 I1 S1) as I3. destruct (fresh_step computes n _ _ _ _ _ _ F1 S1) as (F3 & _ & _).
  unfold interpret in G. destruct (literals prog l els (interpreted (flat_map (users l) post))) as [[lits [|]]|] eqn:Li; try discriminate. destruct (rewrite l _ lits n (S n) post) as [[post1 last1]|] eqn:Rw in G; [|discriminate]. injection G as <- <-.
  rewrite run_app, R1. cbn [obind run]. cbn [step] in S1 |- *. destruct (@mapM nat (rt D) e1 els) as [xs|] eqn:Mx; [|discriminate]. cbn [obind] in S1 |- *. injection S1 as <- <-.
  destruct F1 as (ND & Fr & Fe & Fm). cbn [flat_map result app] in ND, Fr. destruct (Fr l (or_introl eq_refl)) as (Bl & El & Ml).
  assert (Ne : forall v x, e1 v = Some x -> x <> Ref l) by (intros v x Hv ->; destruct (Fe v _ Hv) as [_ Z]; exact (Z Ml)).
  assert (Nel : ~ In l els). { intros Z. pose proof (mapM_some _ _ _ Mx l Z). contradiction. }
  assert (NDp : ~ In l (flat_map result post)) by (inversion ND; assumption).
  destruct (interpreted_first (flat_map (users l) post)) as [Q1 Q2]. rewrite <- Q1 in Q2. pose proof Li as Li2. rewrite <- Q1 in Li2.
  assert (Rl : rel n l n (upd e1 l (Ref l)) (upd m1 l xs) (upd e1 n (Ref n)) (upd m1 n xs)).
  { constructor.
    - intros v Bv Nv. rewrite !upd_neq by lia. reflexivity.
    - apply upd_eq.
    - exact Bl.
    - apply upd_eq.
    - lia.
    - intros a Ba Na. rewrite !upd_neq by lia. reflexivity.
    - rewrite !upd_eq. reflexivity.
    - intros v. unfold upd. destruct (Nat.eqb_spec v l) as [->|N]; [reflexivity|]. intros Hv. contradiction (Ne v _ Hv). reflexivity.
    - intros a ys. unfold upd. destruct (a =? l).
      + intros [= <-] Z. destruct (mapM_in _ _ _ Mx _ Z) as (v & _ & Hv). exact (Ne v _ Hv eq_refl).
      + intros Ha Z. destruct (Fm a ys Ha) as [_ Fy]. exact (proj1 (Forall_forall _ _) Fy _ Z Ml). }
  assert (Mr : mapM (upd e1 l (Ref l)) els = upd m1 l xs l). { rewrite upd_eq. apply (mapM_cong _ _ _ _ Mx). intros v x Iv Hv. rewrite upd_neq; [exact Hv|]. intros ->. contradiction. }
  destruct (sim computes n l prog UD post _ lits n (S n) els post1 last1 _ _ _ _ e2 m2 Rw ltac:(intros x Ix; apply in_or_app; right; right; exact Ix) Q2 (or_intror (conj (ex_intro _ true Li2) (conj Mr Nel))) F3 I3 NDp Nh Rl (Nat.lt_succ_diag_r n) H) as (e2' & m2' & X & Y).
  exists e2', m2'. split; [exact X|exact Y].
Qed.
End Meaning.

(** ** When the pattern applies *)
Definition uncounted (l : value) (us : list user) : nat := List.length (filter (grows l) us).
Lemma legal_iff prog idx k : (exists i, legal_index prog idx k = Some i) <-> exists z, const prog idx = Some z /\ (- Z.of_nat k <= z < Z.of_nat k)%Z.
Proof.
  unfold legal_index. destruct (const prog idx) as [z|]; cbn [obind]; [|split; [intros (i & H); discriminate|intros (z & H & _); discriminate]].
  destruct (Z.ltb_spec z 0) as [A|A]; [destruct (Z.leb_spec 0 (z + Z.of_nat k)) as [B|B], (Z.ltb_spec (z + Z.of_nat k) (Z.of_nat k)) as [C|C]|destruct (Z.leb_spec 0 z) as [B|B], (Z.ltb_spec z (Z.of_nat k)) as [C|C]]; cbn [andb];
    split; try (intros (i & H); discriminate); try (intros _; exists z; split; [reflexivity|lia]); try (intros _; eexists; reflexivity); intros (z' & [= <-] & H); lia.
Qed.
Lemma legal_bound prog idx k i : legal_index prog idx k = Some i -> i < k.
Proof.
  unfold legal_index. destruct (const prog idx) as [z|]; [|discriminate]. cbn [obind]. destruct (z <? 0)%Z; [destruct (Z.leb_spec 0 (z + Z.of_nat k)), (Z.ltb_spec (z + Z.of_nat k) (Z.of_nat k))|destruct (Z.leb_spec 0 z), (Z.ltb_spec z (Z.of_nat k))]; cbn [andb]; try discriminate; intros [= <-]; lia.
Qed.
Definition fails (prog : list op) (l : value) (k : nat) (us : list user) : Prop := exists us1 u us2, us = us1 ++ u :: us2 /\ Forall (fun v => ~ stops v) us1 /\ refuses prog (k + uncounted l us1) u.
Definition touched (l : value) (us : list user) : Prop := exists us1 u us2, us = us1 ++ u :: us2 /\ Forall (fun v => ~ stops v) us1 /\ changes l u.
Lemma fails_cons prog l k u us : fails prog l k (u :: us) <-> refuses prog k u \/ (~ stops u /\ fails prog l (k + (if grows l u then 1 else 0)) us).
Proof.
  unfold fails, uncounted. split.
  - intros (us1 & v & us2 & E & F & R). destruct us1 as [|u1 us1]; [left; injection E as <- <-; cbn in R; rewrite Nat.add_0_r in R; exact R|right]. injection E as <- ->. inversion F as [|? ? H1 H2]; subst. split; [exact H1|]. exists us1, v, us2. split; [reflexivity|]. split; [exact H2|]. cbn [filter] in R. destruct (grows l u); cbn [List.length] in R; [replace (k + 1 + List.length (filter (grows l) us1)) with (k + S (List.length (filter (grows l) us1))) by lia; exact R|rewrite Nat.add_0_r; exact R].
  - intros [R|(N & us1 & v & us2 & -> & F & R)]; [exists [], u, us; split; [reflexivity|]; split; [constructor|]; cbn; rewrite Nat.add_0_r; exact R|]. exists (u :: us1), v, us2. split; [reflexivity|]. split; [constructor; assumption|]. cbn [filter]. destruct (grows l u); cbn [List.length]; [replace (k + S (List.length (filter (grows l) us1))) with (k + 1 + List.length (filter (grows l) us1)) by lia; exact R|rewrite Nat.add_0_r in R; exact R].
Qed.
Lemma touched_cons l u us : touched l (u :: us) <-> changes l u \/ (~ stops u /\ touched l us).
Proof.
  unfold touched. split.
  - intros (us1 & v & us2 & E & F & R). destruct us1 as [|u1 us1]; [left; injection E as <- <-; exact R|right]. injection E as <- ->. inversion F as [|? ? H1 H2]; subst. split; [exact H1|]. exists us1, v, us2. split; [reflexivity|]. split; assumption.
  - intros [R|(N & us1 & v & us2 & -> & F & R)]; [exists [], u, us; split; [reflexivity|]; split; [constructor|exact R]|]. exists (u :: us1), v, us2. split; [reflexivity|]. split; [constructor; assumption|exact R].
Qed.
Lemma insert_at_length i v vs : List.length (insert_at i v vs) = S (List.length vs).
Proof. unfold insert_at. rewrite app_length. cbn [List.length]. rewrite <- plus_n_Sm, <- app_length, firstn_skipn. reflexivity. Qed.
Fixpoint until (us : list user) : list user := match us with [] => [] | UInner _ true :: _ => [] | u :: us => u :: until us end.
Definition special_b (u : user) : bool := match u with UInner _ _ => false | _ => true end.
Definition count (us : list user) : nat := List.length (filter special_b us).
Lemma literals_spec prog l : forall us running,
  match literals prog l running us with
  | None => fails prog l (List.length running) us
  | Some (lits, g) => ~ fails prog l (List.length running) us /\ (g = true <-> touched l us) /\ List.length lits = count (until us)
  end.
Proof.
  induction us as [|u us IH]; intros running.
  - cbn. split; [intros (us1 & u & us2 & E & _); destruct us1; discriminate|]. split; [|reflexivity]. split; [discriminate|]. intros (us1 & u & us2 & E & _). destruct us1; discriminate.
  - assert (Step : forall run2 (Rf : ~ refuses prog (List.length running) u) (Ns : ~ stops u) (Ln : List.length run2 = List.length running + (if grows l u then 1 else 0)) (Sp : special_b u = true) (mine : bool) (Mn : mine = true <-> changes l u),
      match (do (ls, g) <- literals prog l run2 us ; Some (run2 :: ls, mine || g)) with
      | None => fails prog l (List.length running) (u :: us)
      | Some (lits, g) => ~ fails prog l (List.length running) (u :: us) /\ (g = true <-> touched l (u :: us)) /\ List.length lits = count (until (u :: us))
      end).
    { intros run2 Rf Ns Ln Sp mine Mn. specialize (IH run2). destruct (literals prog l run2 us) as [[ls g]|]; cbn [obind].
      - destruct IH as (X1 & X2 & X3). rewrite fails_cons, touched_cons, <- Ln. split; [tauto|]. split; [rewrite orb_true_iff, Mn, X2; tauto|]. assert (Un : until (u :: us) = u :: until us) by (destruct u as [| | |[|] [|]]; try discriminate; reflexivity). rewrite Un. unfold count. cbn [filter]. rewrite Sp. cbn [List.length]. f_equal. exact X3.
      - rewrite fails_cons, <- Ln. right. split; assumption. }
    destruct u as [s el used|s idx el used|s idx el used|ne mu]; cbn [literals].
    + destruct used; cbn [negb guard obind]; [apply fails_cons; left; reflexivity|]. apply Step; try reflexivity; [cbn; discriminate|cbn; tauto| |cbn; apply Nat.eqb_eq]. cbn [grows]. destruct (s =? l); [rewrite app_length; reflexivity|lia].
    + destruct used; cbn [negb guard obind]; [apply fails_cons; left; left; reflexivity|]. destruct (const prog idx) as [z|] eqn:Cz; cbn [obind]; [|apply fails_cons; left; right; intros (z & Z & _); rewrite Cz in Z; discriminate].
      destruct (Z.ltb_spec z 0) as [A|A]; [cbn [orb negb guard obind]; apply fails_cons; left; right; intros (z' & Z & B); rewrite Cz in Z; injection Z as <-; lia|]. destruct (Z.ltb_spec (Z.of_nat (List.length running)) z) as [B|B]; cbn [orb negb guard obind]; [apply fails_cons; left; right; intros (z' & Z & C); rewrite Cz in Z; injection Z as <-; lia|].
      apply Step; try reflexivity; [|cbn; tauto| |cbn; apply Nat.eqb_eq].
      * cbn. intros [Z|Z]; [discriminate|]. apply Z. exists z. split; [exact Cz|lia].
      * cbn [grows]. destruct (s =? l); [rewrite insert_at_length; lia|lia].
    + destruct used; cbn [negb guard obind]; [apply fails_cons; left; left; reflexivity|]. destruct (legal_index prog idx (List.length running)) as [i|] eqn:Lg; cbn [obind].
      * apply Step; try reflexivity; [|cbn; tauto| |cbn; apply Nat.eqb_eq].
        -- cbn. intros [Z|Z]; [discriminate|]. apply Z. apply legal_iff. exists i. exact Lg.
        -- cbn [grows]. destruct (s =? l); [rewrite set_nth_length; lia|lia].
      * apply fails_cons. left. right. intros Z. apply legal_iff in Z. destruct Z as (i & Z). congruence.
    + destruct mu.
      * rewrite fails_cons, touched_cons. cbn. split; [tauto|]. split; [|reflexivity]. split; [discriminate|tauto].
      * specialize (IH running). destruct (literals prog l running us) as [[ls g]|].
        -- destruct IH as (X1 & X2 & X3). rewrite fails_cons, touched_cons. cbn [grows refuses changes stops]. rewrite Nat.add_0_r. split; [tauto|]. split; [tauto|]. assert (Un : until (UInner ne false :: us) = UInner ne false :: until us) by (destruct ne; reflexivity). rewrite Un. exact X3.
        -- apply fails_cons. right. cbn. rewrite Nat.add_0_r. split; [tauto|exact IH].
Qed.
(** The pattern does not apply exactly if a user before the first unknown change stands in the way, or none of those changes the list *)
Theorem C126_fails prog l els post n : let us := interpreted (flat_map (users l) post) in
  interpret prog l els post n = Fails <-> (exists us1 u us2, us = us1 ++ u :: us2 /\ Forall (fun v => ~ stops v) us1 /\ refuses prog (List.length els + List.length (filter (grows l) us1)) u)
    \/ ~ (exists us1 u us2, us = us1 ++ u :: us2 /\ Forall (fun v => ~ stops v) us1 /\ changes l u).
Proof.
  intros us. fold (touched l us). change (exists us1 u us2, us = us1 ++ u :: us2 /\ Forall (fun v => ~ stops v) us1 /\ refuses prog (List.length els + List.length (filter (grows l) us1)) u) with (fails prog l (List.length els) us).
  unfold interpret. fold us. pose proof (literals_spec prog l us els) as L. destruct (literals prog l els us) as [[lits [|]]|].
  - destruct L as (X1 & X2 & _). split; [destruct (rewrite l _ lits n (S n) post) as [[? ?]|]; discriminate|]. intros [Z|Z]; [contradiction|]. exfalso. apply Z. apply X2. reflexivity.
  - destruct L as (X1 & X2 & _). split; [intros _; right; intros Z; apply X2 in Z; discriminate|reflexivity].
  - split; [intros _; left; exact L|reflexivity].
Qed.
Lemma inners_special (is : list inner) : count (map (fun i => UInner (nested i) (mutates i)) is) = 0.
Proof. unfold count. induction is as [|i is IH]; [reflexivity|exact IH]. Qed.
Lemma count_app a b : count (a ++ b) = count a + count b.
Proof. unfold count. rewrite filter_app, app_length. reflexivity. Qed.
Lemma rewrite_count l : forall post k lits cur next, (exists r, rewrite l k lits cur next post = Some r) <-> count (firstn k (flat_map (users l) post)) <= List.length lits.
Proof.
  induction post as [|o post IH]; intros k lits cur next; [cbn; rewrite firstn_nil; cbn; split; [lia|intros _; eexists; reflexivity]|].
  assert (Keep : forall o' k' us', redirect l k cur o = (o', k') -> users l o = us' -> count (firstn k us') = 0 -> k' = k - List.length us' -> (exists r, (let (o2, k2) := redirect l k cur o in do (rest, last) <- rewrite l k2 lits cur next post ; Some (o2 :: rest, last)) = Some r) <-> count (firstn k (flat_map (users l) (o :: post))) <= List.length lits).
  { intros o' k' us' Rd U C K. rewrite Rd. cbn [flat_map]. rewrite U, firstn_app, count_app, C, <- K. cbn [plus]. rewrite <- (IH k' lits cur next). destruct (rewrite l k' lits cur next post) as [[rest last]|]; cbn [obind]; split; intros [r H]; try discriminate; eexists; reflexivity. }
  assert (Ch : forall self u, changed o = Some self -> users l o = [u] -> special_b u = true -> (exists r, rewrite l k lits cur next (o :: post) = Some r) <-> count (firstn k (flat_map (users l) (o :: post))) <= List.length lits).
  { intros self u Cs U Sp. cbn [rewrite flat_map]. rewrite Cs, U. destruct k as [|k].
    - assert (Rd : redirect l 0 cur o = (o, 0)) by (destruct o; try discriminate; reflexivity). rewrite Rd. cbn [firstn]. rewrite rewrite_zero. cbn. split; [lia|intros _; eexists; reflexivity].
    - cbn [app firstn]. unfold count at 1. cbn [filter]. rewrite Sp. cbn [List.length]. fold (count (firstn k (flat_map (users l) post))). destruct lits as [|lit lits]; [split; [intros [r H]; discriminate|cbn; lia]|]. cbn [List.length]. rewrite <- Nat.succ_le_mono, <- (IH k lits next (S next)). destruct (rewrite l k lits next (S next) post) as [[rest last]|]; cbn [obind]; split; intros [r H]; try discriminate; eexists; reflexivity. }
  assert (Rs : forall self, changed o = Some self -> users l o = [] -> (exists r, rewrite l k lits cur next (o :: post) = Some r) <-> count (firstn k (flat_map (users l) (o :: post))) <= List.length lits).
  { intros self Cs U. cbn [rewrite]. rewrite Cs, U. apply (Keep o k []); [destruct o; try discriminate; reflexivity|exact U|rewrite firstn_nil; reflexivity|cbn; lia]. }
  destruct o as [r z|r els|s el u|s i el u|s i el u|r v|r is].
  - cbn [rewrite changed]. apply (Keep (Int r z) k []); [reflexivity|reflexivity|rewrite firstn_nil; reflexivity|cbn; lia].
  - cbn [rewrite changed]. destruct (has l els) eqn:Hh.
    + destruct k as [|k]; [apply (Keep (Make r els) 0 [UInner false false]); [reflexivity|cbn [users]; rewrite Hh; reflexivity|reflexivity|reflexivity]|]. apply (Keep (Make r (map (swap l cur) els)) k [UInner false false]); [cbn [redirect]; rewrite Hh; reflexivity|cbn [users]; rewrite Hh; reflexivity|destruct k; reflexivity|cbn; lia].
    + apply (Keep (Make r els) k []); [cbn [redirect]; rewrite Hh; destruct k; reflexivity|cbn [users]; rewrite Hh; reflexivity|rewrite firstn_nil; reflexivity|cbn; lia].
  - destruct (has l [s; el]) eqn:Hh; [apply (Ch s (UAppend s el u)); try reflexivity; cbn [users]; rewrite Hh; reflexivity|]. apply (Rs s); [reflexivity|cbn [users]; rewrite Hh; reflexivity].
  - destruct (has l [s; i; el]) eqn:Hh; [apply (Ch s (UInsert s i el u)); try reflexivity; cbn [users]; rewrite Hh; reflexivity|]. apply (Rs s); [reflexivity|cbn [users]; rewrite Hh; reflexivity].
  - destruct (has l [s; i; el]) eqn:Hh; [apply (Ch s (USet s i el u)); try reflexivity; cbn [users]; rewrite Hh; reflexivity|]. apply (Rs s); [reflexivity|cbn [users]; rewrite Hh; reflexivity].
  - cbn [rewrite changed]. destruct (l =? v) eqn:Hh.
    + destruct k as [|k]; [apply (Keep (Alias r v) 0 [UInner false false]); [reflexivity|cbn [users]; rewrite Hh; reflexivity|reflexivity|reflexivity]|]. apply (Keep (Alias r cur) k [UInner false false]); [cbn [redirect]; rewrite Hh; reflexivity|cbn [users]; rewrite Hh; reflexivity|destruct k; reflexivity|cbn; lia].
    + apply (Keep (Alias r v) k []); [cbn [redirect]; rewrite Hh; destruct k; reflexivity|cbn [users]; rewrite Hh; reflexivity|rewrite firstn_nil; reflexivity|cbn; lia].
  - cbn [rewrite changed]. pose proof (redirect_inners_k l cur is k) as Kk. destruct (redirect_inners l k cur is) as [is' k'] eqn:Ri. cbn [snd] in Kk.
    apply (Keep (Other r is') k' (map (fun i => UInner (nested i) (mutates i)) (filter (fun i => has l (operands i)) is))); [cbn [redirect]; rewrite Ri; reflexivity|cbn [users]; apply inner_users| |rewrite map_length; exact Kk].
    rewrite firstn_map. apply inners_special.
Qed.
Lemma until_split us : until us = us \/ exists s us2, us = until us ++ s :: us2 /\ stops s.
Proof.
  induction us as [|u us IH]; [left; reflexivity|]. destruct u as [| | |ne [|]]; try (destruct IH as [E|(s & us2 & E & H)]; [left; cbn [until]; try (destruct ne); rewrite E; reflexivity|right; exists s, us2; split; [cbn [until]; try (destruct ne); rewrite E at 1; reflexivity|exact H]]).
  right. exists (UInner ne true), us. split; [destruct ne; reflexivity|exact Logic.I].
Qed.
Lemma until_none us : Forall (fun u => ~ stops u) (until us).
Proof. induction us as [|u us IH]; [constructor|]. destruct u as [| | |[|] [|]]; cbn [until]; try (constructor; [cbn; tauto|exact IH]); constructor. Qed.
Lemma special_some us : (exists a u b, us = a ++ u :: b /\ special u) <-> count us <> 0.
Proof.
  induction us as [|u us IH]; [split; [intros (a & u & b & E & _); destruct a; discriminate|intros Z; contradiction Z; reflexivity]|]. unfold count in *. cbn [filter]. destruct (special_b u) eqn:Sp.
  - split; [discriminate|]. intros _. exists [], u, us. split; [reflexivity|]. destruct u; try exact Logic.I. discriminate.
  - rewrite <- IH. split.
    + intros (a & v & b & E & H). destruct a as [|a0 a]; injection E as -> ->; [destruct v; try discriminate; destruct H|]. exists a, v, b. split; [reflexivity|exact H].
    + intros (a & v & b & -> & H). exists (u :: a), v, b. split; [reflexivity|exact H].
Qed.
(** The pattern reads beyond its literals exactly if an append, insert or _set_item comes after a user of the same block that it cannot interpret *)
Theorem C126_crashes prog l els post n : interpret prog l els post n <> Fails ->
  let us := interpreted (flat_map (users l) post) in interpret prog l els post n = Crashes <-> exists us1 s us2 u us3, us = us1 ++ s :: us2 ++ u :: us3 /\ stops s /\ special u.
Proof.
  cbv zeta. unfold interpret. set (us := interpreted (flat_map (users l) post)). pose proof (literals_spec prog l us els) as L. destruct (literals prog l els us) as [[lits [|]]|]; try (intros Z; contradiction Z; reflexivity). intros _. destruct L as (_ & _ & Ln).
  pose proof (rewrite_count l post (List.length us) lits n (S n)) as Rc. destruct (interpreted_first (flat_map (users l) post)) as [Q1 _]. fold us in Q1. rewrite Q1 in Rc.
  assert (Mid : (exists us1 s us2 u us3, us = us1 ++ s :: us2 ++ u :: us3 /\ stops s /\ special u) <-> List.length lits < count us).
  { rewrite Ln. split.
    - intros (us1 & s & us2 & u & us3 & E & Hs & Hu). assert (U : exists w, us = until us ++ w /\ count (s :: us2 ++ u :: us3) <= count w).
      { rewrite E. clear - Hs. induction us1 as [|v us1 IH]; cbn [app].
        - exists (s :: us2 ++ u :: us3). destruct s as [| | |[|] [|]]; try contradiction; cbn [until app]; split; try reflexivity; lia.
        - destruct IH as (w & Ew & Hw). assert (Dv : until (v :: us1 ++ s :: us2 ++ u :: us3) = v :: until (us1 ++ s :: us2 ++ u :: us3) \/ until (v :: us1 ++ s :: us2 ++ u :: us3) = []) by (destruct v as [| | |[|] [|]]; cbn [until]; auto).
          destruct Dv as [Dv|Dv]; rewrite Dv.
          + exists w. split; [cbn [app]; rewrite <- Ew; reflexivity|exact Hw].
          + exists (v :: us1 ++ s :: us2 ++ u :: us3). split; [reflexivity|]. change (v :: us1 ++ s :: us2 ++ u :: us3) with ((v :: us1) ++ s :: us2 ++ u :: us3). rewrite count_app. lia. }
      destruct U as (w & Ew & Hw). rewrite Ew at 2. rewrite count_app. assert (C1 : count (s :: us2 ++ u :: us3) <> 0) by (apply special_some; exists (s :: us2), u, us3; split; [reflexivity|exact Hu]). lia.
    - intros Lt. destruct (until_split us) as [E|(s & us2 & E & Hs)]; [rewrite E in Lt; lia|]. rewrite E in Lt at 2. rewrite count_app in Lt. assert (C1 : count us2 <> 0). { change (s :: us2) with ([s] ++ us2) in Lt. rewrite count_app in Lt. assert (count [s] = 0) by (destruct s; try contradiction; reflexivity). lia. }
      apply special_some in C1. destruct C1 as (a & u & b & E2 & Hu). exists (until us), s, a, u, b. rewrite <- E2. split; [exact E|split; assumption]. }
  rewrite Mid. destruct (rewrite l (List.length us) lits n (S n) post) as [[rest last]|].
  - split; [discriminate|]. intros Lt. assert (Z : count us <= List.length lits) by (apply Rc; eexists; reflexivity). lia.
  - split; [|reflexivity]. intros _. destruct (Nat.le_gt_cases (count us) (List.length lits)) as [Le|Gt]; [|exact Gt]. apply Rc in Le. destruct Le as [r H]. discriminate.
Qed.
(** If every change of the list is interpreted, none is left *)
Theorem C126_removed prog l els post n post' last : (forall o, In o post -> ~ holds l o) -> Forall (fun u => ~ stops u) (flat_map (users l) post) -> interpret prog l els post n = Gives post' last ->
  forall o' v, In o' post' -> changed o' = Some v -> exists o, In o post /\ changed o = Some v /\ v <> l.
Proof.
  intros Nh Ns G. unfold interpret in G. assert (Iu : interpreted (flat_map (users l) post) = flat_map (users l) post). { clear G Nh. induction (flat_map (users l) post) as [|u us IH]; [reflexivity|]. inversion Ns as [|? ? H1 H2]; subst. destruct u as [| | |[|] [|]]; cbn [interpreted]; try (rewrite (IH H2); reflexivity). contradiction H1. exact Logic.I. }
  rewrite Iu in G. destruct (literals prog l els (flat_map (users l) post)) as [[lits [|]]|]; try discriminate. destruct (rewrite l _ lits n (S n) post) as [[post1 last1]|] eqn:Rw in G; [|discriminate]. injection G as <- <-.
  assert (Rm : forall p k lits cur next p1 last, rewrite l k lits cur next p = Some (p1, last) -> List.length (flat_map (users l) p) <= k -> (forall o, In o p -> ~ holds l o) -> forall o v, In o p1 -> changed o = Some v -> In o p /\ v <> l).
  { clear. induction p as [|o p IH]; intros k lits cur next p1 last H Hk Nh o1 v I1 C1; [cbn in H; injection H as <- _; destruct I1|]. cbn [rewrite flat_map] in *. rewrite app_length in Hk.
    assert (Keep : forall (k' : nat) (o' : op), redirect l k cur o = (o', k') -> k' = k - List.length (users l o) -> (changed o' = Some v -> o' = o /\ v <> l) -> (let (o2, k2) := redirect l k cur o in do (rest, last) <- rewrite l k2 lits cur next p ; Some (o2 :: rest, last)) = Some (p1, last) -> (o = o1 \/ In o1 p) /\ v <> l).
    { intros k' o' Rd Ek Hc H2. rewrite Rd in H2. destruct (rewrite l k' lits cur next p) as [[rest last0]|] eqn:Rr; [|discriminate]. cbn [obind] in H2. injection H2 as <- _. destruct I1 as [<-|I1].
      - destruct (Hc C1) as [-> N]. split; [left; reflexivity|exact N].
      - destruct (IH _ _ _ _ _ _ Rr ltac:(lia) ltac:(intros x Ix; apply Nh; right; exact Ix) o1 v I1 C1) as [X Y]. split; [right; exact X|exact Y]. }
    assert (No : ~ holds l o) by (apply Nh; left; reflexivity).
    assert (Ch : forall self, changed o = Some self -> (users l o = [] -> self <> l) -> (users l o <> [] -> self = l /\ List.length (users l o) = 1) -> (o = o1 \/ In o1 p) /\ v <> l).
    { intros self Cs U1 U2. rewrite Cs in H. destruct (users l o) as [|u us] eqn:U.
      - apply (Keep k o); [destruct o; try discriminate; reflexivity|cbn; lia| |exact H]. intros Z. rewrite Cs in Z. injection Z as ->. split; [reflexivity|exact (U1 eq_refl)].
      - destruct (U2 ltac:(discriminate)) as [-> Lu]. destruct us; [|discriminate]. cbn [List.length] in Hk. destruct k as [|k]; [lia|]. destruct lits as [|lit lits]; [discriminate|]. rewrite Nat.eqb_refl in H. destruct (rewrite l k lits next (S next) p) as [[rest last0]|] eqn:Rr; [|discriminate]. cbn [obind app] in H. injection H as <- _.
        destruct I1 as [<-|I1]; [discriminate|]. destruct (IH _ _ _ _ _ _ Rr ltac:(lia) ltac:(intros x Ix; apply Nh; right; exact Ix) o1 v I1 C1) as [X Y]. split; [right; exact X|exact Y]. }
    destruct o as [r z|r els|s el u|s i el u|s i el u|r w|r is].
    - apply (Keep k (Int r z)); [reflexivity|cbn; lia|discriminate|exact H].
    - assert (U : users l (Make r els) = []) by (cbn [users holds] in *; apply has_false in No; rewrite No; reflexivity). apply (Keep k (Make r els)); [apply redirect_none; assumption|rewrite U; cbn; lia|discriminate|exact H].
    - apply (Ch s); [reflexivity| |]; cbn [users holds] in *; destruct (has l [s; el]) eqn:Hh; try discriminate; try (intros Z; contradiction Z; reflexivity).
      + intros _ ->. apply has_false in Hh. apply Hh. left. reflexivity.
      + intros _. apply has_true in Hh. split; [|reflexivity]. destruct Hh as [Z|[Z|[]]]; [exact Z|contradiction].
    - apply (Ch s); [reflexivity| |]; cbn [users holds] in *; destruct (has l [s; i; el]) eqn:Hh; try discriminate; try (intros Z; contradiction Z; reflexivity).
      + intros _ ->. apply has_false in Hh. apply Hh. left. reflexivity.
      + intros _. apply has_true in Hh. split; [|reflexivity]. destruct Hh as [Z|[Z|[Z|[]]]]; [exact Z|tauto|tauto].
    - apply (Ch s); [reflexivity| |]; cbn [users holds] in *; destruct (has l [s; i; el]) eqn:Hh; try discriminate; try (intros Z; contradiction Z; reflexivity).
      + intros _ ->. apply has_false in Hh. apply Hh. left. reflexivity.
      + intros _. apply has_true in Hh. split; [|reflexivity]. destruct Hh as [Z|[Z|[Z|[]]]]; [exact Z|tauto|tauto].
    - assert (U : users l (Alias r w) = []) by (cbn [users holds] in *; destruct (Nat.eqb_spec l w) as [->|N]; [contradiction No; reflexivity|reflexivity]). apply (Keep k (Alias r w)); [apply redirect_none; assumption|rewrite U; cbn; lia|discriminate|exact H].
    - pose proof (redirect_inners_k l cur is k) as Kk. destruct (redirect_inners l k cur is) as [is' k'] eqn:Ri. cbn [snd] in Kk. apply (Keep k' (Other r is')); [cbn [redirect]; rewrite Ri; reflexivity|cbn [users]; rewrite inner_users, map_length; exact Kk|discriminate|exact H]. }
  intros o' v [<-|I1] C1; [discriminate|]. apply in_map_iff in I1. destruct I1 as (o & <- & I1). assert (Cv : exists s, changed o = Some s /\ v = swap l last1 s) by (destruct o; try discriminate; cbn in C1; injection C1 as <-; eexists; split; reflexivity). destruct Cv as (s & Cs & ->).
  destruct (Rm _ _ _ _ _ _ _ Rw (le_n _) Nh o s I1 Cs) as [X Y]. exists o. rewrite (swap_other _ _ _ Y). split; [exact X|]. split; assumption.
Qed.

(** ** Programs *)
(** the result of an operation is the length of its first list; one that changes a list empties it *)
Definition lengths (r : nat) (args : list (arg unit)) : option (datum unit * (nat -> list (datum unit))) := match args with Many xs :: _ => Some (inl (Z.of_nat (List.length xs)), fun _ => []) | _ => Some (inl 0%Z, fun _ => []) end.
Definition reads (r v : value) : op := Other r [{| nested := false; mutates := false; operands := [v] |}].
Definition nothing_yet : env unit := fun _ => None.
Definition no_memory : memory unit := fun _ => None.
Lemma fresh_start p n : NoDup (flat_map result p) -> Forall (fun k => k < n) (flat_map result p) -> fresh_program p n nothing_yet no_memory.
Proof. intros H1 H2. split; [exact H1|]. split; [intros k Ik; split; [exact (proj1 (Forall_forall _ _) H2 k Ik)|split; reflexivity]|]. split; intros k x H; discriminate H. Qed.
(** l = [x]; l.append(y); l.insert(0, y); l[-1] = x; read l; change l; read l *)
Definition program : list op :=
  [Append 2 1 false; reads 4 2; Insert 2 3 1 false; SetItem 2 5 0 false; reads 6 2; Other 7 [{| nested := false; mutates := true; operands := [2] |}]; reads 8 2].
Definition prelude : list op := [Int 0 7%Z; Int 1 8%Z; Int 3 0%Z; Int 5 (-1)%Z].
Example C126_nonvacuous : exists post' last e2 m2, fresh_program (prelude ++ Make 2 [0] :: program) 9 nothing_yet no_memory /\ (forall o, In o program -> ~ holds 2 o)
  /\ interpret (prelude ++ Make 2 [0] :: program) 2 [0] program 9 = Gives post' last /\ run lengths (prelude ++ Make 2 [0] :: program) nothing_yet no_memory = Some (e2, m2)
  /\ e2 4 = Some (Val (inl 2%Z)) /\ e2 6 = Some (Val (inl 3%Z)) /\ e2 8 = Some (Val (inl 0%Z))
  /\ post' = [Make 9 [0]; Make 10 [0; 1]; reads 4 10; Make 11 [1; 0; 1]; Make 12 [1; 0; 0]; reads 6 12; Other 7 [{| nested := false; mutates := true; operands := [12] |}]; reads 8 12] /\ last = 12.
Proof.
  eexists; eexists; eexists; eexists. split; [apply fresh_start; [repeat constructor; cbn; intuition discriminate|repeat constructor]|]. split; [intros o Io; cbn in Io; intuition (subst; cbn in *; intuition discriminate)|].
  split; [vm_compute; reflexivity|]. split; [vm_compute; reflexivity|]. repeat split; reflexivity.
Qed.
(** another name for the list: what is appended through it is lost *)
Definition aliased : list op := [Alias 3 2; Append 3 0 false; Append 2 0 false; reads 4 2].
Theorem C126_alias_refuted : exists post' last e2 m2 e2' m2', fresh_program ([Int 0 7%Z; Make 2 []] ++ aliased) 5 nothing_yet no_memory /\ interpret ([Int 0 7%Z; Make 2 []] ++ aliased) 2 [] aliased 5 = Gives post' last
  /\ run lengths ([Int 0 7%Z; Make 2 []] ++ aliased) nothing_yet no_memory = Some (e2, m2) /\ run lengths ([Int 0 7%Z] ++ post') nothing_yet no_memory = Some (e2', m2') /\ e2 4 = Some (Val (inl 2%Z)) /\ e2' 4 = Some (Val (inl 1%Z)).
Proof. do 6 eexists. split; [apply fresh_start; [repeat constructor; cbn; intuition discriminate|repeat constructor]|]. split; [vm_compute; reflexivity|]. split; [vm_compute; reflexivity|]. split; [vm_compute; reflexivity|]. split; reflexivity. Qed.
(** the list is put into another list and changed afterwards: the new program uses the last list before it is made *)
Definition held : list op := [Append 3 2 false; Append 2 0 false].
Theorem C126_held_refuted : exists post' last e2 m2, fresh_program ([Int 0 7%Z; Make 3 []; Make 2 []] ++ held) 5 nothing_yet no_memory /\ interpret ([Int 0 7%Z; Make 3 []; Make 2 []] ++ held) 2 [] held 5 = Gives post' last
  /\ run lengths ([Int 0 7%Z; Make 3 []; Make 2 []] ++ held) nothing_yet no_memory = Some (e2, m2) /\ run lengths ([Int 0 7%Z; Make 3 []] ++ post') nothing_yet no_memory = None.
Proof. do 4 eexists. split; [apply fresh_start; [repeat constructor; cbn; intuition discriminate|repeat constructor]|]. split; [vm_compute; reflexivity|]. split; [vm_compute; reflexivity|]. vm_compute. reflexivity. Qed.
(** append, a change that is not understood, append: the literals are read beyond their end *)
Definition resumed : list op := [Append 2 0 false; Other 3 [{| nested := false; mutates := true; operands := [2] |}]; Append 2 0 false].
Theorem C126_resumed_refuted : exists e2 m2, fresh_program ([Int 0 7%Z; Make 2 []] ++ resumed) 4 nothing_yet no_memory /\ (forall o, In o resumed -> ~ holds 2 o) /\ run lengths ([Int 0 7%Z; Make 2 []] ++ resumed) nothing_yet no_memory = Some (e2, m2)
  /\ interpret ([Int 0 7%Z; Make 2 []] ++ resumed) 2 [] resumed 4 = Crashes.
Proof. do 2 eexists. split; [apply fresh_start; [repeat constructor; cbn; intuition discriminate|repeat constructor]|]. split; [intros o Io; cbn in Io; intuition (subst; cbn in *; intuition discriminate)|]. split; vm_compute; reflexivity. Qed.

Print Assumptions C126_meaning.
Print Assumptions C126_fails.
Print Assumptions C126_crashes.
Print Assumptions C126_removed.
Print Assumptions C126_alias_refuted.
Print Assumptions C126_held_refuted.
Print Assumptions C126_resumed_refuted.
