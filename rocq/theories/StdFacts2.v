(** A density cut into pieces: total probability and distribution function from an antiderivative. *)
From Coq Require Import Reals Lra List Bool Sorted.
From Coquelicot Require Import Coquelicot.
From Verif Require AtomFacts.
From Verif Require Import Base Seg Piecewise PiecewiseSpec PiecewiseFacts2 Integral IntegralFacts SegIntSpec CumintFacts CumintFacts2 Std StdSpec.
Import List ListNotations.
Open Scope R_scope.

Lemma tiles_path l : forall a b, tiles a l b <-> path a l b.
Proof. induction l; simpl; intros; [tauto|]. rewrite IHl. tauto. Qed.

Lemma path_ordered l : forall a b, Forall wf_seg l -> Forall (fun s => isDirac s = false) l -> path a l b -> ordered l.
Proof.
  induction l as [|s l IH]; intros a b W D P; [constructor|].
  inversion W; inversion D; subst. destruct P as (E & P). constructor; [eapply IH; eauto|].
  apply Forall_forall. intros t Ht. destruct (path_In _ _ _ t H2 P Ht) as (L & _). split; auto.
  assert (Wt : wf_seg t) by (rewrite Forall_forall in H2; auto).
  assert (Dt : isDirac t = false) by (rewrite Forall_forall in H6; auto).
  assert (L1 : Rbar_lt (sa s) (sb s)) by (destruct s; simpl in *; auto; discriminate).
  assert (L2 : Rbar_lt (sa t) (sb t)) by (destruct t; simpl in *; auto; discriminate).
  intros E2. rewrite E2 in L1.
  apply (Rbar_le_not_lt _ _ (Rbar_le_trans _ _ _ (Rbar_lt_le _ _ L1) L)). auto.
Qed.

(** clamping *)
Definition clamp (a b : Rbar) (x : R) : Rbar := if Rbar_le_dec x a then a else if Rbar_le_dec b x then b else Finite x.

Lemma upto_prim s G (x : R) : isDirac s = false -> wf_seg s -> prim (sf s) (sa s) (sb s) G ->
  mass_upto s x = G (clamp (sa s) (sb s) x) - G (sa s).
Proof.
  intros D W P. unfold clamp.
  assert (L : Rbar_lt (sa s) (sb s)) by (destruct s; simpl in *; auto; discriminate).
  assert (M : mass s = G (sb s) - G (sa s)).
  { rewrite mass_Q by auto. apply (prim_Q _ _ _ _ _ _ P); auto; try apply Rbar_le_refl; apply Rbar_lt_le; auto. }
  assert (E : mass_upto s x = if Rbar_le_dec x (sa s) then 0
         else if Rbar_le_dec (sb s) x then mass s
         else RInt_gen (sf s) (at_r (sa s)) (at_left x)) by (destruct s; auto; discriminate).
  rewrite E. destruct (Rbar_le_dec x (sa s)) as [A|A]; [ring|].
  destruct (Rbar_le_dec (sb s) x) as [B|B]; [auto|].
  apply Rbar_not_le_lt in A. apply Rbar_not_le_lt in B.
  change (at_left x) with (at_l (Finite x)). apply (prim_RInt_gen _ _ _ _ _ _ P); auto. apply Rbar_le_refl.
  apply Rbar_lt_le; auto.
Qed.

Lemma tiles_cdf G (x : R) l : forall a b, l <> [] -> Forall (fun s => isDirac s = false) l -> Forall wf_seg l -> path a l b ->
  Forall (fun s => prim (sf s) (sa s) (sb s) G) l ->
  cdf_spec l x = G (clamp a b x) - G a.
Proof.
  induction l as [|s l IH]; intros a b N D W P H; [congruence|].
  inversion D; inversion W; inversion H; subst. destruct P as (E & P). subst a.
  unfold cdf_spec. cbn [map]. rewrite AtomFacts.sumR_cons. rewrite (upto_prim s G x) by auto.
  assert (L : Rbar_lt (sa s) (sb s)) by (destruct s; simpl in *; auto; discriminate).
  destruct l as [|t l].
  - simpl in P. subst b. simpl. ring.
  - change (sumR (map (fun s0 : segment => mass_upto s0 x) (t :: l))) with (cdf_spec (t :: l) x).
    rewrite (IH (sb s) b) by (auto; discriminate). unfold clamp.
    assert (LB : Rbar_lt (sb s) b).
    { destruct P as (E & P). inversion H3; inversion H7; subst. rewrite <- E.
      apply (Rbar_lt_le_trans _ (sb t)); [destruct t; simpl in *; auto; discriminate|].
      eapply path_le; eauto. }
    destruct (Rbar_le_dec x (sa s)) as [A|A].
    + destruct (Rbar_le_dec x (sb s)) as [B|B]; [ring|].
      exfalso. apply B. apply (Rbar_le_trans _ (sa s)); auto. apply Rbar_lt_le; auto.
    + destruct (Rbar_le_dec (sb s) x) as [B|B].
      * destruct (Rbar_le_dec x (sb s)) as [C|C].
        -- assert (E : Finite x = sb s) by (apply Rbar_le_antisym; auto).
           rewrite <- E. destruct (Rbar_le_dec b x) as [F|F]; [|ring].
           exfalso. rewrite <- E in LB. apply (Rbar_le_not_lt _ _ F); auto.
        -- destruct (Rbar_le_dec b x) as [F|F]; ring.
      * destruct (Rbar_le_dec x (sb s)) as [C|C]; [|apply Rbar_not_le_lt in B; exfalso; apply C; apply Rbar_lt_le; auto].
        destruct (Rbar_le_dec b x) as [F|F]; [|ring].
        exfalso. apply B. apply (Rbar_le_trans _ b); auto. apply Rbar_lt_le; auto.
Qed.

Lemma tiles_total G l : forall a b, Forall (fun s => isDirac s = false) l -> Forall wf_seg l -> path a l b ->
  Forall (fun s => prim (sf s) (sa s) (sb s) G) l -> total_mass l = G b - G a.
Proof.
  induction l as [|s l IH]; intros a b D W P H.
  - simpl in P. subst. unfold total_mass. simpl. ring.
  - inversion D; inversion W; inversion H; subst. destruct P as (E & P). subst a.
    unfold total_mass. cbn [map]. rewrite AtomFacts.sumR_cons. change (sumR (map mass l)) with (total_mass l).
    rewrite (IH (sb s) b); auto. rewrite <- cmass_mass by auto. rewrite (cmass_G s G) by auto. ring.
Qed.

(** a piece carries the function f *)
Definition carries (f : R -> R) (s : segment) : Prop :=
  isDirac s = false /\ wf_seg s /\ (forall x : R, RbarIn (sa s) (sb s) x -> sf s x = f x) /\
  (hasRightPole s = true -> forall c : R, RbarIn (sa s) (sb s) c -> ex_RInt f (real (sa s)) c).

Lemma prim_eq f g a b G : (forall x : R, RbarIn a b x -> f x = g x) -> prim f a b G -> prim g a b G.
Proof.
  intros E (H1 & H2 & H3). split; [auto|]. split; [|auto].
  intros u v U V. apply (is_RInt_ext f); [|apply H2; auto].
  intros x X. apply E. destruct U, V. split.
  - destruct (Rle_dec u v) as [L|L]; [rewrite Rmin_left in X by lra|rewrite Rmin_right in X by lra].
    + apply (Rbar_lt_trans _ u); auto. simpl; lra.
    + apply (Rbar_lt_trans _ v); auto. simpl; lra.
  - destruct (Rle_dec u v) as [L|L]; [rewrite Rmax_right in X by lra|rewrite Rmax_left in X by lra].
    + apply (Rbar_lt_trans _ v); auto. simpl; lra.
    + apply (Rbar_lt_trans _ u); auto. simpl; lra.
Qed.

Lemma law_mass_prims r l q a b w G F : r = Ok q -> segs q = l -> l <> [] -> path a l b ->
  Forall (fun s => isDirac s = false /\ wf_seg s /\ prim (sf s) (sa s) (sb s) G /\
                   (forall x : R, RbarIn (sa s) (sb s) x -> 0 <= sf s x) /\
                   (hasRightPole s = true -> forall c : R, RbarIn (sa s) (sb s) c -> ex_RInt (sf s) (real (sa s)) c)) l ->
  G a = 0 -> G b = w ->
  (forall x : R, F x = G (clamp a b x)) -> law_mass r a b w F.
Proof.
  intros E Es N P C G0 G1 HF. exists q. rewrite Es.
  assert (D : Forall (fun s => isDirac s = false) l) by (eapply Forall_impl; [|exact C]; intros s H; apply H).
  assert (W : Forall wf_seg l) by (eapply Forall_impl; [|exact C]; intros s H; apply H).
  assert (PP : Forall (fun s => prim (sf s) (sa s) (sb s) G) l) by (eapply Forall_impl; [|exact C]; intros s H; apply H).
  splits; try (apply tiles_path; assumption); auto.
  - unfold density; splits; auto.
    + apply Forall_forall. intros s Hs. rewrite Forall_forall in C, PP.
      destruct (C s Hs) as (C1 & C2 & C3 & C4 & C5). pose proof (prim_integrable _ _ _ _ (PP s Hs)) as I.
      destruct s as [u v h|u v h|v h|u h|u h|u v h p]; simpl in *; auto. destruct p; auto. split; auto.
      intros c c1 c2. apply C5; auto. split; simpl; auto.
    + eapply path_ordered; eauto.
    + eapply path_chained; eauto.
  - apply Forall_forall. intros s Hs. rewrite Forall_forall in C, D. split; [apply D; auto|].
    destruct (C s Hs) as (C1 & C2 & C3 & C4 & C5).
    assert (NS : forall x : R, Rbar_lt (sa s) x -> Rbar_lt x (sb s) -> 0 <= sf s x) by (intros x X1 X2; apply C4; split; auto).
    destruct s; auto; discriminate.
  - rewrite (tiles_total G l a b); auto. rewrite G0, G1. ring.
  - intros x. rewrite (tiles_cdf G x l a b); auto. rewrite HF, G0. ring.
Qed.

Lemma law_prims r l q a b G F : r = Ok q -> segs q = l -> l <> [] -> path a l b ->
  Forall (fun s => isDirac s = false /\ wf_seg s /\ prim (sf s) (sa s) (sb s) G /\
                   (forall x : R, RbarIn (sa s) (sb s) x -> 0 <= sf s x) /\
                   (hasRightPole s = true -> forall c : R, RbarIn (sa s) (sb s) c -> ex_RInt (sf s) (real (sa s)) c)) l ->
  G a = 0 -> G b = 1 ->
  (forall x : R, F x = G (clamp a b x)) -> law r a b F.
Proof. intros. eapply law_mass_prims; eauto. Qed.

Lemma law_pieces r l q f a b G F : r = Ok q -> segs q = l -> l <> [] -> Forall (carries f) l -> path a l b ->
  (forall x : R, RbarIn a b x -> 0 <= f x) -> prim f a b G -> G a = 0 -> G b = 1 ->
  (forall x : R, F x = G (clamp a b x)) -> law r a b F.
Proof.
  intros E Es N C P NN PG G0 G1 HF.
  assert (W : Forall wf_seg l) by (eapply Forall_impl; [|exact C]; intros s H; apply H).
  eapply (law_prims r l q a b G); eauto.
  apply Forall_forall. intros s Hs. rewrite Forall_forall in C. destruct (C s Hs) as (C1 & C2 & C3 & C4).
  destruct (path_In a l b s W P Hs).
  assert (L : Rbar_lt (sa s) (sb s)) by (destruct s; simpl in *; auto; discriminate).
  splits; auto.
  - apply (prim_eq f); [intros; symmetry; apply C3; auto|]. apply (prim_sub f a b); auto.
  - intros x (X1 & X2). rewrite C3 by (split; auto). apply NN. split.
    + apply (Rbar_le_lt_trans _ (sa s)); auto.
    + apply (Rbar_lt_le_trans _ (sb s)); auto.
  - intros HR c Hc. destruct (C4 HR c Hc) as (z & Hz). exists z.
    destruct s as [u v h|u v h|v h|u h|u h|u v h p]; simpl in *; try discriminate.
    destruct Hc as (c1 & c2). simpl in c1, c2.
    apply (is_RInt_ext f); auto. intros x X. rewrite Rmin_left, Rmax_right in X by lra.
    symmetry. apply C3. split; simpl; lra.
Qed.

(** the antiderivative extended by its limits *)
Definition ext_prim (H : R -> R) (a b : Rbar) (la lb : R) (x : Rbar) : R :=
  if Rbar_le_dec x a then la else if Rbar_le_dec b x then lb else H (real x).

Lemma ext_prim_in H a b la lb (x : R) : RbarIn a b x -> ext_prim H a b la lb x = H x.
Proof.
  intros (X1 & X2). unfold ext_prim. destruct (Rbar_le_dec x a) as [A|A]; [exfalso; apply (Rbar_le_not_lt _ _ A); auto|].
  destruct (Rbar_le_dec b x) as [B|B]; auto. exfalso; apply (Rbar_le_not_lt _ _ B); auto.
Qed.

Lemma prim_ftc f (H : R -> R) a b la lb : Rbar_lt a b ->
  (forall x : R, RbarIn a b x -> is_derive H x (f x)) ->
  (forall x : R, RbarIn a b x -> continuous f x) ->
  filterlim H (at_r a) (locally la) -> filterlim H (at_l b) (locally lb) ->
  prim f a b (ext_prim H a b la lb).
Proof.
  intros L D C La Lb.
  assert (Ga : ext_prim H a b la lb a = la) by (unfold ext_prim; destruct (Rbar_le_dec a a) as [|N]; auto; destruct N; apply Rbar_le_refl).
  assert (Gb : ext_prim H a b la lb b = lb).
  { unfold ext_prim. destruct (Rbar_le_dec b a) as [A|A]; [exfalso; apply (Rbar_le_not_lt _ _ A); auto|].
    destruct (Rbar_le_dec b b) as [|N]; auto; destruct N; apply Rbar_le_refl. }
  split; auto. splits.
  - intros u v U V. rewrite !ext_prim_in by auto.
    apply (is_RInt_derive H f u v); intros x (X1 & X2).
    + apply D. destruct U, V. split.
      * apply (Rbar_lt_le_trans _ (Rmin u v)); auto. apply Rmin_case; auto.
      * apply (Rbar_le_lt_trans _ (Rmax u v)); auto. apply Rmax_case; auto.
    + apply C. destruct U, V. split.
      * apply (Rbar_lt_le_trans _ (Rmin u v)); auto. apply Rmin_case; auto.
      * apply (Rbar_le_lt_trans _ (Rmax u v)); auto. apply Rmax_case; auto.
  - intros x X1 X2.
    apply (filterlim_ext_loc H).
    { eapply filter_imp; [|apply (at_l_between a x X1)]. intros t (T1 & T2). symmetry. apply ext_prim_in. split; auto.
      apply (Rbar_lt_le_trans _ x); auto. }
    destruct (Rbar_le_lt_or_eq_dec _ _ X2) as [X3| ->]; [|rewrite Gb; auto].
    destruct x as [x| |]; [|destruct b; simpl in X3; tauto|destruct a; simpl in X1; tauto].
    rewrite ext_prim_in by (split; auto).
    apply (filterlim_at_l_cont H x). apply (ex_derive_continuous (V := R_NormedModule) H). exists (f x). apply D; split; auto.
  - intros x X1 X2.
    apply (filterlim_ext_loc H).
    { eapply filter_imp; [|apply (at_r_between x b X2)]. intros t (T1 & T2). symmetry. apply ext_prim_in. split; auto.
      apply (Rbar_le_lt_trans _ x); auto. }
    destruct (Rbar_le_lt_or_eq_dec _ _ X1) as [X3|X3]; [|rewrite <- X3, Ga; auto].
    destruct x as [x| |]; [|destruct b; simpl in X2; tauto|destruct a; simpl in X3; tauto].
    rewrite ext_prim_in by (split; auto).
    apply (filterlim_at_r_cont H x). apply (ex_derive_continuous (V := R_NormedModule) H). exists (f x). apply D; split; auto.
Qed.

(** the usual case: one formula over the whole support *)
Lemma law_ftc r l q f H a b F : r = Ok q -> segs q = l -> l <> [] -> Forall (carries f) l -> path a l b ->
  Rbar_lt a b -> (forall x : R, RbarIn a b x -> 0 <= f x) ->
  (forall x : R, RbarIn a b x -> is_derive H x (f x)) ->
  (forall x : R, RbarIn a b x -> continuous f x) ->
  filterlim H (at_r a) (locally 0) -> filterlim H (at_l b) (locally 1) ->
  (forall x : R, F x = within a b H x) -> law r a b F.
Proof.
  intros E Es N C P L NN D CF La Lb HF.
  apply (law_pieces r l q f a b (ext_prim H a b 0 1)); auto.
  - apply prim_ftc; auto.
  - unfold ext_prim. destruct (Rbar_le_dec a a) as [|Z]; auto; destruct Z; apply Rbar_le_refl.
  - unfold ext_prim. destruct (Rbar_le_dec b a) as [A|A]; [exfalso; apply (Rbar_le_not_lt _ _ A); auto|].
    destruct (Rbar_le_dec b b) as [|Z]; auto; destruct Z; apply Rbar_le_refl.
  - intros x. rewrite HF. unfold within, clamp, ext_prim.
    destruct (Rbar_le_dec x a) as [A|A]; [destruct (Rbar_le_dec a a) as [|Z]; auto; destruct Z; apply Rbar_le_refl|].
    destruct (Rbar_le_dec b x) as [B|B].
    + destruct (Rbar_le_dec b a) as [A'|A']; [exfalso; apply (Rbar_le_not_lt _ _ A'); auto|].
      destruct (Rbar_le_dec b b) as [|Z]; auto; destruct Z; apply Rbar_le_refl.
    + destruct (Rbar_le_dec x a); [contradiction|]. destruct (Rbar_le_dec b x); [contradiction|]. reflexivity.
Qed.

(** antiderivatives of neighbouring intervals *)
Lemma prim_glue f a c b G : prim f a (Finite c) G -> prim f (Finite c) b G ->
  (forall u : R, RbarIn a c u -> is_RInt f u c (G c - G u)) ->
  (forall v : R, RbarIn c b v -> is_RInt f c v (G v - G c)) -> prim f a b G.
Proof.
  intros PA PB IA IB. pose proof PA as (A1 & A2 & A3 & A4). pose proof PB as (B1 & B2 & B3 & B4). split; [eapply Rbar_lt_trans; eauto|]. splits.
  - assert (K : forall u v : R, RbarIn a b u -> RbarIn a b v -> u <= c -> c <= v -> is_RInt f u v (G v - G u)).
    { intros u v (U1 & U2) (V1 & V2) uc cv.
      replace (G (Finite v) - G (Finite u)) with (plus (G (Finite c) - G (Finite u)) (G (Finite v) - G (Finite c))) by (unfold plus; simpl; ring).
      apply (is_RInt_Chasles f u c v).
      - destruct (Req_dec u c) as [->|NE]; [replace (G c - G c) with 0 by ring; apply (is_RInt_point (V := R_NormedModule))|].
        apply IA. split; auto. simpl; lra.
      - destruct (Req_dec v c) as [->|NE]; [replace (G c - G c) with 0 by ring; apply (is_RInt_point (V := R_NormedModule))|].
        apply IB. split; auto. simpl; lra. }
    intros u v U V. destruct (Rle_dec u c) as [uc|uc]; destruct (Rle_dec c v) as [cv|cv].
    + apply K; auto.
    + destruct (Req_dec u c) as [->|NE].
      * replace (G v - G c) with (opp (G c - G v)) by (unfold opp; simpl; ring).
        apply (is_RInt_swap (V := R_NormedModule)). apply K; auto; lra.
      * destruct U, V. apply A2; split; auto; simpl; lra.
    + destruct (Req_dec v c) as [->|NE].
      * replace (G c - G u) with (opp (G u - G c)) by (unfold opp; simpl; ring).
        apply (is_RInt_swap (V := R_NormedModule)). apply K; auto; lra.
      * destruct U, V. apply B2; split; auto; simpl; lra.
    + replace (G v - G u) with (opp (G u - G v)) by (unfold opp; simpl; ring).
      apply (is_RInt_swap (V := R_NormedModule)). apply K; auto; lra.
  - intros x X1 X2. destruct (Rbar_lt_le_dec c x) as [L|L].
    + apply B3; auto.
    + apply A3; auto.
  - intros x X1 X2. destruct (Rbar_lt_le_dec x c) as [L|L].
    + apply A4; auto.
    + apply B4; auto.
Qed.
