(** Proofs about sampling. *)
From Coq Require Import Reals List Bool Arith Lia Lra.
From Coquelicot Require Import Coquelicot.
From Verif Require Import Base ND Models RV RVSpec RVFacts RVFacts2.
Import List ListNotations.
Open Scope R_scope.

Lemma value_uses h w w' i x : value h w i x -> (forall j, uses h i j -> w j = w' j) -> value h w' i x.
Proof.
  induction 1 as [i c E K|i c r E K|i c s m d x E K V IH|i c f d x y E K V IH U|i c o d1 d2 x y z E K V1 IH1 V2 IH2 B]; intros H.
  - rewrite H by (eapply uses_base; eauto). econstructor; eauto.
  - econstructor; eauto.
  - eapply val_shift; eauto. apply IH. intros j J. apply H. eapply uses_arg; eauto. rewrite K. cbn. auto.
  - eapply val_un; eauto. apply IH. intros j J. apply H. eapply uses_arg; eauto. rewrite K. cbn. auto.
  - eapply val_bin; eauto; [apply IH1|apply IH2]; intros j J; apply H; eapply uses_arg; eauto; rewrite K; cbn; auto.
Qed.
Lemma uses_inv h i j c : nth_error h i = Some c -> uses h i j -> (i = j /\ c_kind c = KBase) \/ exists p, In p (args (c_kind c)) /\ uses h p j.
Proof. intros E U. destruct U as [i c' E' K|i c' p j E' P U]; rewrite E in E'; injection E' as <-; eauto. Qed.
Lemma under_trans h i j k : under h i j -> under h j k -> under h i k.
Proof. induction 1; intros U; auto. eapply under_arg; eauto. Qed.
Lemma tracked_arg h i c p : nth_error h i = Some c -> In p (args (c_kind c)) -> tracked h i -> tracked h p.
Proof. intros E P T j d U. apply T. eapply under_arg; eauto. Qed.

(** the joint sample a cache stands for *)
Definition w_of (ca : cache) : nat -> R := fun j => match cached j ca with Some x => x | None => 0 end.
Definition sub_cache (c1 c2 : cache) : Prop := forall j y, cached j c1 = Some y -> cached j c2 = Some y.
Definition sound (h : heap) (ca : cache) : Prop :=
  forall i x, cached i ca = Some x -> value h (w_of ca) i x /\ forall j, uses h i j -> cached j ca <> None.
Lemma sub_trans c1 c2 c3 : sub_cache c1 c2 -> sub_cache c2 c3 -> sub_cache c1 c3.
Proof. intros A B j y E. auto. Qed.
Lemma w_sub c1 c2 j : sub_cache c1 c2 -> cached j c1 <> None -> w_of c1 j = w_of c2 j.
Proof. intros S N. unfold w_of. destruct (cached j c1) as [x|] eqn:E; [|tauto]. rewrite (S j x E). auto. Qed.
Lemma value_sub h c1 c2 i x : sub_cache c1 c2 -> (forall j, uses h i j -> cached j c1 <> None) -> value h (w_of c1) i x -> value h (w_of c2) i x.
Proof. intros S N V. eapply value_uses; eauto. intros j J. apply w_sub; auto. Qed.
Lemma cons_cached i x l j : cached j ((i, x) :: l) = if Nat.eqb j i then Some x else cached j l.
Proof. reflexivity. Qed.

Section Rand.
Variable draw : nat -> nat -> R.
(** what one call adds to the cache: new base variables [bs], each drawn once *)
Definition adds (h : heap) (i : nat) (ca : cache) (k : nat) (x : R) (ca' : cache) (k' : nat) (bs : list nat) : Prop :=
  k' = (k + length bs)%nat /\ NoDup bs /\ sub_cache ca ca' /\ sound h ca' /\ value h (w_of ca') i x /\
  (forall j, In j bs -> uses h i j /\ cached j ca = None) /\ (forall j, uses h i j -> cached j ca' <> None) /\
  (forall j c, nth_error h j = Some c -> c_kind c = KBase -> cached j ca' <> None -> cached j ca = None -> In j bs) /\
  (forall n j, nth_error bs n = Some j -> cached j ca' = Some (draw (k + n)%nat j)).
Lemma adds_nil h i ca k x : sound h ca -> value h (w_of ca) i x -> (forall j, uses h i j -> cached j ca <> None) -> adds h i ca k x ca k [].
Proof.
  intros SO V U. unfold adds. split; [cbn; lia|]. split; [constructor|]. split; [intros j y E; auto|]. split; auto. split; auto. split; [intros j []|]. split; auto. split; [intros; contradiction|]. intros [|n] j E; discriminate.
Qed.
(** the result of the operation is put in the cache *)
Lemma adds_put h i c ca k x l k' bs : nth_error h i = Some c -> c_kind c <> KBase -> cached i ca = None -> adds h i ca k x l k' bs -> adds h i ca k x ((i, x) :: l) k' bs.
Proof.
  intros E NB NC (K & ND & SU & SO & V & B1 & B2 & B3 & B4).
  assert (BI : forall j d, nth_error h j = Some d -> c_kind d = KBase -> j <> i) by (intros j d J KD ->; congruence).
  assert (CI : forall y, cached i l = Some y -> y = x) by (intros y C; eapply value_det; [apply (SO _ _ C)|auto]).
  assert (S2 : sub_cache l ((i, x) :: l)). { intros j y C. rewrite cons_cached. destruct (Nat.eqb_spec j i) as [->|]; auto. f_equal. symmetry. auto. }
  assert (UB : forall j, uses h i j -> exists d, nth_error h j = Some d /\ c_kind d = KBase) by (intros j U; clear -U; induction U; eauto).
  assert (V2 : value h (w_of ((i, x) :: l)) i x) by (eapply value_sub; eauto).
  assert (U2 : forall j, uses h i j -> cached j ((i, x) :: l) <> None). { intros j U. rewrite cons_cached. destruct (Nat.eqb j i); [discriminate|]. auto. }
  unfold adds. splits; auto; try tauto.
  - eapply sub_trans; eauto.
  - intros j y. rewrite cons_cached. destruct (Nat.eqb_spec j i) as [->|N]; intros C.
    + injection C as <-. auto.
    + destruct (SO j y C) as (Vj & Uj). split; [eapply value_sub; eauto|]. intros a A. rewrite cons_cached. destruct (Nat.eqb a i); [discriminate|]. auto.
  - intros j d J KD C N. apply (B3 j d J KD); auto. rewrite cons_cached in C. pose proof (BI j d J KD) as JI. apply Nat.eqb_neq in JI. rewrite JI in C. auto.
Qed.
Lemma rand_tracked h : wf_heap h -> forall n i ca k x oc k', tracked h i -> sound h ca -> rand draw n h i (Some ca) k = Ok (x, oc, k') ->
  exists ca' bs, oc = Some ca' /\ adds h i ca k x ca' k' bs /\ cached i ca' = Some x.
Proof.
  intros W. induction n as [|n IH]; intros i ca k x oc k' T SO R; [discriminate|]. cbn [rand] in R. destruct (get h i) as [c|e] eqn:G; [|discriminate]. cbn [rbind] in R. apply get_ok in G.
  rewrite (T i c (under_self _ _) G) in R. destruct (cached i ca) as [y|] eqn:C.
  - injection R as <- <- <-. exists ca, []. splits; auto. apply adds_nil; auto; apply (SO i y C).
  - assert (TA : forall p, In p (args (c_kind c)) -> tracked h p) by (intros p P; eapply tracked_arg; eauto).
    destruct (c_kind c) as [|r|s m d|f d|o d1 d2] eqn:K; cbn [args] in TA.
    + injection R as <- <- <-. exists ((i, draw k i) :: ca), [i]. splits; auto; [|rewrite cons_cached, Nat.eqb_refl; auto].
      assert (S2 : sub_cache ca ((i, draw k i) :: ca)). { intros j y J. rewrite cons_cached. destruct (Nat.eqb_spec j i) as [->|]; auto. congruence. }
      assert (WI : w_of ((i, draw k i) :: ca) i = draw k i) by (unfold w_of; rewrite cons_cached, Nat.eqb_refl; auto).
      assert (VI : value h (w_of ((i, draw k i) :: ca)) i (draw k i)) by (rewrite <- WI at 2; econstructor; eauto).
      assert (UI : forall j, uses h i j -> cached j ((i, draw k i) :: ca) <> None). { intros j U. apply (uses_inv _ _ _ _ G) in U as [(<- & _)|(p & P & _)]; [rewrite cons_cached, Nat.eqb_refl; discriminate|rewrite K in P; destruct P]. }
      unfold adds. splits; auto.
      * cbn. lia.
      * repeat constructor. intros [].
      * intros j y. rewrite cons_cached. destruct (Nat.eqb_spec j i) as [->|N]; intros J; [injection J as <-; auto|]. destruct (SO j y J) as (Vj & Uj). split; [eapply value_sub; eauto|]. intros a A. rewrite cons_cached. destruct (Nat.eqb a i); [discriminate|auto].
      * intros j [<-|[]]. split; auto. econstructor; eauto.
      * intros j d J KD. rewrite cons_cached. destruct (Nat.eqb_spec j i) as [->|]; [cbn; auto|tauto].
      * intros [|[|q]] j J; cbn in J; try discriminate. injection J as <-. rewrite cons_cached, Nat.eqb_refl, Nat.add_0_r. auto.
    + injection R as <- <- <-. exists ((i, r) :: ca), []. splits; auto; [|rewrite cons_cached, Nat.eqb_refl; auto]. eapply adds_put; eauto; [congruence|]. apply adds_nil; auto; [econstructor; eauto|]. intros j U. apply (uses_inv _ _ _ _ G) in U as [(_ & F)|(p & P & _)]; [congruence|rewrite K in P; destruct P].
    + destruct (rand draw n h d (Some ca) k) as [[[x1 o1] k1]|e] eqn:R1; [|discriminate]. cbn [rmap fst snd] in R. destruct (IH d ca k x1 o1 k1) as (l & bs & -> & A & C1); auto; [apply TA; cbn; auto|]. injection R as <- <- <-.
      eexists _, bs. splits; [reflexivity| |rewrite cons_cached, Nat.eqb_refl; auto]. eapply adds_put; eauto; [congruence|]. destruct A as (A1 & A2 & A3 & A4 & A5 & A6 & A7 & A8 & A9). unfold adds. splits; auto.
      * eapply val_shift; eauto.
      * intros j J. split; [|apply A6; auto]. eapply uses_arg; eauto; [rewrite K; cbn; auto|apply A6; auto].
      * intros j U. apply (uses_inv _ _ _ _ G) in U as [(_ & F)|(p & P & U)]; [congruence|]. rewrite K in P. destruct P as [<-|[]]. auto.
    + destruct (rand draw n h d (Some ca) k) as [[[x1 o1] k1]|e] eqn:R1; [|discriminate]. cbn [rbind fst snd] in R. destruct (un_val f x1) as [y|] eqn:U1; [|discriminate]. cbn [rmap fst snd] in R. destruct (IH d ca k x1 o1 k1) as (l & bs & -> & A & C1); auto; [apply TA; cbn; auto|]. injection R as <- <- <-.
      eexists _, bs. splits; [reflexivity| |rewrite cons_cached, Nat.eqb_refl; auto]. eapply adds_put; eauto; [congruence|]. destruct A as (A1 & A2 & A3 & A4 & A5 & A6 & A7 & A8 & A9). unfold adds. splits; auto.
      * eapply val_un; eauto. apply un_val_is. auto.
      * intros j J. split; [|apply A6; auto]. eapply uses_arg; eauto; [rewrite K; cbn; auto|apply A6; auto].
      * intros j U. apply (uses_inv _ _ _ _ G) in U as [(_ & F)|(p & P & U)]; [congruence|]. rewrite K in P. destruct P as [<-|[]]. auto.
    + destruct (rand draw n h d1 (Some ca) k) as [[[x1 o1] k1]|e] eqn:R1; [|discriminate]. cbn [rbind fst snd] in R. destruct (IH d1 ca k x1 o1 k1) as (l1 & bs1 & -> & A & C1); auto; [apply TA; cbn; auto|].
      destruct A as (A1 & A2 & A3 & A4 & A5 & A6 & A7 & A8 & A9).
      destruct (rand draw n h d2 (Some l1) k1) as [[[x2 o2] k2]|e] eqn:R2; [|discriminate]. cbn [rbind fst snd] in R. destruct (bin_val o x1 x2) as [y|] eqn:U1; [|discriminate]. cbn [rmap fst snd] in R. destruct (IH d2 l1 k1 x2 o2 k2) as (l2 & bs2 & -> & B & C2); auto; [apply TA; cbn; auto|].
      destruct B as (B1 & B2 & B3 & B4 & B5 & B6 & B7 & B8 & B9). injection R as <- <- <-.
      eexists _, (bs1 ++ bs2). splits; [reflexivity| |rewrite cons_cached, Nat.eqb_refl; auto]. eapply adds_put; eauto; [congruence|].
      assert (NN : forall j, In j bs1 -> cached j l1 <> None) by (intros j J; apply A7; apply A6; auto).
      unfold adds. splits; auto.
      * rewrite app_length. lia.
      * clear -A2 B2 NN B6. induction bs1 as [|b bs1 IH]; cbn; auto. inversion A2; subst. constructor; [|apply IH; auto; intros j J; apply NN; cbn; auto]. intros I. apply in_app_iff in I as [I|I]; auto. apply (NN b); [cbn; auto|]. apply B6. auto.
      * eapply sub_trans; eauto.
      * eapply val_bin; eauto; [eapply value_sub; eauto|apply bin_val_is; auto].
      * intros j J. apply in_app_iff in J as [J|J].
        -- split; [|apply A6; auto]. apply (uses_arg h i c d1 j G); [rewrite K; cbn; auto|apply A6; auto].
        -- split; [apply (uses_arg h i c d2 j G); [rewrite K; cbn; auto|apply B6; auto]|]. destruct (cached j ca) as [y0|] eqn:CJ; auto. apply A3 in CJ. destruct (B6 j J). congruence.
      * intros j U. apply (uses_inv _ _ _ _ G) in U as [(_ & F)|(p & P & U)]; [congruence|]. rewrite K in P. destruct P as [<-|[<-|[]]]; auto. pose proof (A7 j U) as Z. destruct (cached j l1) as [z|] eqn:CZ; [|tauto]. apply B3 in CZ. congruence.
      * intros j d J KD CJ CN. apply in_app_iff. destruct (cached j l1) as [z|] eqn:CZ; [left; apply (A8 j d); auto; congruence|right; apply (B8 j d); auto].
      * intros q j Q. destruct (Nat.lt_ge_cases q (length bs1)) as [L|L].
        -- rewrite nth_error_app1 in Q by auto. apply B3. auto.
        -- rewrite nth_error_app2 in Q by auto. rewrite (B9 _ _ Q). f_equal. f_equal. lia.
Qed.
(** several objects, one cache *)
Lemma samples_tracked h : wf_heap h -> forall l ca k xs oc k', (forall i, In i l -> tracked h i) -> sound h ca -> samples draw h l (Some ca) k = Ok (xs, oc, k') ->
  exists ca' bs, oc = Some ca' /\ k' = (k + length bs)%nat /\ NoDup bs /\ sub_cache ca ca' /\ sound h ca' /\ Forall2 (value h (w_of ca')) l xs /\
  (forall j, In j bs -> (exists i, In i l /\ uses h i j) /\ cached j ca = None) /\ (forall i j, In i l -> uses h i j -> cached j ca' <> None) /\
  (forall j c, nth_error h j = Some c -> c_kind c = KBase -> cached j ca' <> None -> cached j ca = None -> In j bs) /\
  (forall n j, nth_error bs n = Some j -> cached j ca' = Some (draw (k + n)%nat j)).
Proof.
  intros W. induction l as [|i l IH]; intros ca k xs oc k' T SO R; cbn [samples] in R.
  - injection R as <- <- <-. exists ca, []. split; auto. split; [cbn; lia|]. split; [constructor|]. split; [intros j y E; auto|]. split; auto. split; [constructor|]. split; [intros j []|]. split; [intros i j []|]. split; [intros; contradiction|]. intros [|n] j E; discriminate.
  - destruct (sample draw h i (Some ca) k) as [[[x o1] k1]|e] eqn:R1; [|discriminate]. cbn [rbind fst snd] in R.
    destruct (samples draw h l o1 k1) as [[[ys o2] k2]|e] eqn:R2; [|discriminate]. cbn [rmap fst snd] in R. injection R as <- <- <-.
    destruct (rand_tracked h W _ i ca k x o1 k1 (T i (or_introl eq_refl)) SO R1) as (l1 & bs1 & -> & (A1 & A2 & A3 & A4 & A5 & A6 & A7 & A8 & A9) & C1).
    destruct (IH l1 k1 ys o2 k2) as (l2 & bs2 & -> & B1 & B2 & B3 & B4 & B5 & B6 & B7 & B8 & B9); auto; [intros j J; apply T; cbn; auto|].
    assert (NN : forall j, In j bs1 -> cached j l1 <> None) by (intros j J; apply A7; apply A6; auto).
    exists l2, (bs1 ++ bs2). splits; auto.
    + rewrite app_length. lia.
    + clear -A2 B2 NN B6. induction bs1 as [|b bs1 IH]; cbn; auto. inversion A2; subst. constructor; [|apply IH; auto; intros j J; apply NN; cbn; auto]. intros I. apply in_app_iff in I as [I|I]; auto. apply (NN b); [cbn; auto|]. apply B6. auto.
    + eapply sub_trans; eauto.
    + constructor; auto. eapply value_sub; eauto.
    + intros j J. apply in_app_iff in J as [J|J].
      * destruct (A6 j J). split; auto. exists i. cbn. auto.
      * destruct (B6 j J) as ((a & Ia & U) & CJ). split; [exists a; cbn; auto|]. destruct (cached j ca) as [y0|] eqn:CK; auto. apply A3 in CK. congruence.
    + intros a j [<-|Ia] U; eauto. pose proof (A7 j U) as Z. destruct (cached j l1) as [z|] eqn:CZ; [|tauto]. apply B3 in CZ. congruence.
    + intros j d J KD CJ CN. apply in_app_iff. destruct (cached j l1) as [z|] eqn:CZ; [left; apply (A8 j d); auto; congruence|right; apply (B8 j d); auto].
    + intros q j Q. destruct (Nat.lt_ge_cases q (length bs1)) as [L|L].
      * rewrite nth_error_app1 in Q by auto. apply B3. auto.
      * rewrite nth_error_app2 in Q by auto. rewrite (B9 _ _ Q). f_equal. f_equal. lia.
Qed.
Lemma shared_ok h l k xs oc k' : wf_heap h -> (forall i, In i l -> tracked h i) -> samples draw h l (Some []) k = Ok (xs, oc, k') ->
  exists w bs, Forall2 (value h w) l xs /\ NoDup bs /\ (forall j, In j bs <-> exists i, In i l /\ uses h i j) /\ k' = (k + length bs)%nat /\ (forall n j, nth_error bs n = Some j -> w j = draw (k + n)%nat j).
Proof.
  intros W T R. assert (S0 : sound h []) by (intros i x E; discriminate). destruct (samples_tracked h W l [] k xs oc k' T S0 R) as (ca & bs & _ & A1 & A2 & A3 & A4 & A5 & A6 & A7 & A8 & A9). exists (w_of ca), bs. splits; auto.
  - intros j. split; [apply A6|]. intros (i & Ii & U). assert (UB : exists d, nth_error h j = Some d /\ c_kind d = KBase) by (clear -U; induction U; eauto). destruct UB as (d & D & K). eapply A8; eauto.
  - intros n j N. unfold w_of. rewrite (A9 n j N). auto.
Qed.
(** a variable sampled without a cache makes its own *)
Lemma own_cache h i k x oc k' : wf_heap h -> tracked h i -> sample draw h i None k = Ok (x, oc, k') -> oc = None /\ exists oc', sample draw h i (Some []) k = Ok (x, oc', k').
Proof.
  intros W T. unfold sample. generalize (length h). intros n. cbn [rand]. destruct (get h i) as [c|e] eqn:G; [|discriminate]. cbn [rbind]. apply get_ok in G. rewrite (T i c (under_self _ _) G). cbn [cached].
  destruct (match c_kind c with KBase => _ | KConst _ => _ | KShift _ _ _ => _ | KUn _ _ => _ | KBin _ _ _ => _ end) as [[[y oy] ky]|e] eqn:D; [|discriminate]. cbn [rmap fst snd]. intros E. injection E as <- <- <-. split; auto. eexists. reflexivity.
Qed.

(** everything treated as independent *)
Lemma rand_fresh h : forall n i ca k x oc k', (forall j c, under h i j -> nth_error h j = Some c -> c_indep c = true) -> rand draw n h i ca k = Ok (x, oc, k') -> oc = ca /\ fresh draw h i k x k'.
Proof.
  induction n as [|n IH]; intros i ca k x oc k' T R; [discriminate|]. cbn [rand] in R. destruct (get h i) as [c|e] eqn:G; [|discriminate]. cbn [rbind] in R. apply get_ok in G.
  rewrite (T i c (under_self _ _) G) in R.
  assert (TA : forall p, In p (args (c_kind c)) -> forall j c, under h p j -> nth_error h j = Some c -> c_indep c = true) by (intros p P j d U; apply T; eapply under_arg; eauto).
  destruct (c_kind c) as [|r|s m d|f d|o d1 d2] eqn:K; cbn [args] in TA.
  - injection R as <- <- <-. split; auto. econstructor; eauto.
  - injection R as <- <- <-. split; auto. econstructor; eauto.
  - destruct (rand draw n h d None k) as [[[x1 o1] k1]|e] eqn:R1; [|discriminate]. injection R as <- <- <-. split; auto. eapply fr_shift; eauto. eapply IH; eauto. apply TA. cbn. auto.
  - destruct (rand draw n h d None k) as [[[x1 o1] k1]|e] eqn:R1; [|discriminate]. cbn [rbind rmap fst snd] in R. destruct (un_val f x1) as [y|] eqn:U1; [|discriminate]. injection R as <- <- <-. split; auto. apply (fr_un draw h i c f d k x1 k1 y G K); [|apply un_val_is; auto]. apply (IH d None k x1 o1 k1 (TA d (or_introl eq_refl)) R1).
  - destruct (rand draw n h d1 None k) as [[[x1 o1] k1]|e] eqn:R1; [|discriminate]. cbn [rbind rmap fst snd] in R.
    destruct (IH d1 None k x1 o1 k1 (TA d1 (or_introl eq_refl)) R1) as (-> & F1).
    destruct (rand draw n h d2 None k1) as [[[x2 o2] k2]|e] eqn:R2; [|discriminate]. cbn [rbind rmap fst snd] in R. destruct (bin_val o x1 x2) as [y|] eqn:U1; [|discriminate]. injection R as <- <- <-. split; auto. apply (fr_bin draw h i c o d1 d2 k x1 k1 x2 k2 y G K F1); [|apply bin_val_is; auto]. apply (IH d2 None k1 x2 o2 k2 (TA d2 (or_intror (or_introl eq_refl))) R2).
Qed.

(** sampling succeeds where nothing partial is computed *)
Lemma un_ok_val f x : f <> ULog -> f <> UInv -> exists y, un_val f x = Ok y.
Proof. destruct f; cbn; intros A B; eauto; congruence. Qed.
Lemma bin_ok_val o x y : o <> ODiv -> exists z, bin_val o x y = Ok z.
Proof. destruct o; cbn; intros A; eauto; congruence. Qed.
Lemma rand_total h : wf_heap h -> forall n i ca k, (i < n)%nat -> (i < length h)%nat -> no_partial h i -> exists t, rand draw n h i ca k = Ok t.
Proof.
  intros W. induction n as [|n IH]; intros i ca k L1 L2 NP; [lia|]. cbn [rand]. destruct (get_some h i L2) as (c & G). rewrite (proj2 (get_ok h i c) G). cbn [rbind].
  assert (AL : forall p, In p (args (c_kind c)) -> (p < i)%nat) by (apply (W i c G)).
  assert (NA : forall p, In p (args (c_kind c)) -> no_partial h p) by (intros p P j d U; apply NP; eapply under_arg; eauto).
  assert (NI := NP i c (under_self _ _) G).
  assert (OP : forall ca k, exists t, match c_kind c with
        | KBase => Ok (draw k i, ca, S k)
        | KConst r => Ok (r, ca, k)
        | KShift s m d => rmap (fun t => (m * fst (fst t) + s, snd (fst t), snd t)) (rand draw n h d ca k)
        | KUn f d => rbind (rand draw n h d ca k) (fun t => rmap (fun x => (x, snd (fst t), snd t)) (un_val f (fst (fst t))))
        | KBin o d1 d2 => rbind (rand draw n h d1 ca k) (fun t => rbind (rand draw n h d2 (snd (fst t)) (snd t)) (fun u =>
            rmap (fun x => (x, snd (fst u), snd u)) (bin_val o (fst (fst t)) (fst (fst u)))))
        end = Ok t).
  { intros ca' q. destruct (c_kind c) as [|r|s m d|f d|o d1 d2] eqn:K; cbn [args] in AL, NA; eauto.
    - assert (d < i)%nat by (apply AL; cbn; auto). destruct (IH d ca' q) as (t & ->); [lia|lia|apply NA; cbn; auto|]. cbn [rmap]. eauto.
    - assert (d < i)%nat by (apply AL; cbn; auto). destruct (IH d ca' q) as (t & ->); [lia|lia|apply NA; cbn; auto|]. cbn [rbind]. destruct (un_ok_val f (fst (fst t))) as (y & ->); [intros ->; auto|intros ->; auto|]. cbn [rmap]. eauto.
    - assert (d1 < i)%nat by (apply AL; cbn; auto). assert (d2 < i)%nat by (apply AL; cbn; auto). destruct (IH d1 ca' q) as (t & ->); [lia|lia|apply NA; cbn; auto|]. cbn [rbind]. destruct (IH d2 (snd (fst t)) (snd t)) as (u & ->); [lia|lia|apply NA; cbn; auto|]. cbn [rbind]. destruct (bin_ok_val o (fst (fst t)) (fst (fst u))) as (y & ->); [intros ->; auto|]. cbn [rmap]. eauto. }
  destruct (c_indep c).
  - destruct (OP None k) as (t & ->). cbn [rmap]. eauto.
  - destruct (cached i match ca with Some l => l | None => [] end); [eauto|]. destruct (OP (Some match ca with Some l => l | None => [] end) k) as (t & ->). cbn [rmap]. eauto.
Qed.
Lemma samples_total h : wf_heap h -> forall l ca k, (forall i, In i l -> (i < length h)%nat /\ no_partial h i) -> exists t, samples draw h l ca k = Ok t.
Proof.
  intros W. induction l as [|i l IH]; intros ca k H; cbn [samples]; eauto. destruct (H i (or_introl eq_refl)) as (L & NP). unfold sample. destruct (rand_total h W (S (length h)) i ca k) as (t & ->); auto. cbn [rbind]. destruct (IH (snd (fst t)) (snd t)) as (u & ->); [intros j J; apply H; cbn; auto|]. cbn [rmap]. eauto.
Qed.
End Rand.
