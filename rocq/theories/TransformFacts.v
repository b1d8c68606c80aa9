(** Proofs about transformations, part 1: images of pieces. *)
From Coq Require Import Reals Lra List Bool Sorted Permutation.
From Coquelicot Require Import Coquelicot.
From Verif Require Import Base Bisect Seg Piecewise PiecewiseSpec PiecewiseFacts PiecewiseFacts2 PiecewiseFacts3
  Integral IntegralFacts SegInt SegIntSpec SegIntFacts SubstFacts Transform TransformSpec.
Import List ListNotations.
Open Scope R_scope.

Lemma wf_lt s : isDirac s = false -> wf_seg s -> Rbar_lt (sa s) (sb s).
Proof. destruct s; auto; discriminate. Qed.

Lemma Rbar_lt_le_dec x y : Rbar_lt x y \/ Rbar_le y x.
Proof. destruct (Rbar_lt_dec x y); auto. right. apply Rbar_not_lt; auto. Qed.

Lemma prob_nd s u v : isDirac s = false ->
  prob s u v = if Rbar_lt_dec (rmaxb u (sa s)) (rminb v (sb s)) then RInt_gen (sf s) (at_r (rmaxb u (sa s))) (at_l (rminb v (sb s))) else 0.
Proof. destruct s; intros; try discriminate; reflexivity. Qed.

Lemma prob_Q s u v : isDirac s = false -> wf_seg s -> Rbar_le u v ->
  prob s u v = Q (sf s) (clamp s u) (clamp s v).
Proof.
  intros D W UV. pose proof (wf_lt s D W) as L. pose proof (Rbar_lt_le _ _ L) as L'.
  rewrite prob_nd by auto.
  destruct (Rbar_lt_le_dec v (sa s)) as [V|V].
  { assert (clamp s u = sa s /\ clamp s v = sa s) as [-> ->].
    { split; apply clamp_low; auto; [apply (Rbar_le_trans _ v); auto|]; apply Rbar_lt_le; auto. }
    rewrite Q_refl. destruct (Rbar_lt_dec (rmaxb u (sa s)) (rminb v (sb s))) as [H|H]; auto. exfalso.
    apply (Rbar_lt_irrefl v). apply (Rbar_lt_trans _ (sa s)); auto.
    apply (Rbar_le_lt_trans _ (rmaxb u (sa s))); [unfold rmaxb; destruct (Rbar_le_dec u (sa s)); auto; [apply Rbar_le_refl|apply Rbar_lt_le, Rbar_not_le; auto]|].
    apply (Rbar_lt_le_trans _ (rminb v (sb s))); auto. unfold rminb. destruct (Rbar_le_dec v (sb s)); [apply Rbar_le_refl|apply Rbar_lt_le, Rbar_not_le; auto]. }
  destruct (Rbar_lt_le_dec (sb s) u) as [U|U].
  { assert (clamp s u = sb s /\ clamp s v = sb s) as [-> ->].
    { split; apply clamp_high; auto; [|apply (Rbar_le_trans _ u); auto]; apply Rbar_lt_le; auto. }
    rewrite Q_refl. destruct (Rbar_lt_dec (rmaxb u (sa s)) (rminb v (sb s))) as [H|H]; auto. exfalso.
    apply (Rbar_lt_irrefl u).
    apply (Rbar_le_lt_trans _ (rmaxb u (sa s))); [unfold rmaxb; destruct (Rbar_le_dec u (sa s)); auto; apply Rbar_le_refl|].
    apply (Rbar_lt_le_trans _ (rminb v (sb s))); auto.
    apply (Rbar_le_trans _ (sb s)); [|apply Rbar_lt_le; auto]. unfold rminb. destruct (Rbar_le_dec v (sb s)); auto. apply Rbar_le_refl. }
  assert (E1 : rmaxb u (sa s) = clamp s u).
  { unfold rmaxb. destruct (Rbar_le_dec u (sa s)) as [H|H]; symmetry; [apply clamp_low; auto|].
    apply clamp_id; auto. apply Rbar_lt_le, Rbar_not_le; auto. }
  assert (E2 : rminb v (sb s) = clamp s v).
  { unfold rminb. destruct (Rbar_le_dec v (sb s)) as [H|H]; symmetry; [apply clamp_id; auto|].
    apply clamp_high; auto. apply Rbar_lt_le, Rbar_not_le; auto. }
  rewrite E1, E2. destruct (Rbar_lt_dec (clamp s u) (clamp s v)) as [H|H].
  - symmetry. apply Q_RInt_gen; auto.
  - apply Rbar_not_lt in H. assert (clamp s u = clamp s v) as -> by (apply Rbar_le_antisym; auto; apply clamp_mono; auto).
    rewrite Q_refl; auto.
Qed.

Section Mono.
Variables (inc : bool) (g : Rbar -> Rbar) (ginv : R -> R) (A B : Rbar).
Hypothesis IP : inverse_pair inc g ginv A B.

Lemma g_lt x y : Rbar_le A x -> Rbar_lt x y -> Rbar_le y B -> Rbar_lt (lo_end inc g x y) (hi_end inc g x y).
Proof. intros H1 H2 H3. pose proof (proj1 IP x y H1 H2 H3). unfold lo_end, hi_end. destruct inc; auto. Qed.
Lemma g_le x y : Rbar_le A x -> Rbar_le x y -> Rbar_le y B -> Rbar_le (lo_end inc g x y) (hi_end inc g x y).
Proof.
  intros H1 H2 H3. destruct (Rbar_le_lt_or_eq_dec _ _ H2) as [L| <-].
  - apply Rbar_lt_le, g_lt; auto.
  - unfold lo_end, hi_end; destruct inc; apply Rbar_le_refl.
Qed.
End Mono.

Lemma ip_onto_inc g ginv A B u v : inverse_pair true g ginv A B -> Rbar_le A u -> Rbar_lt u v -> Rbar_le v B ->
  inc_onto ginv (g u) (g v) u v.
Proof.
  intros IP U UV V. pose proof IP as (M & I & O).
  assert (Y0 : forall y, RbarIn (g u) (g v) y -> betw A B (ginv y) /\ g (ginv y) = y).
  { intros y (Y1 & Y2). apply O. split.
    - apply (Rbar_le_lt_trans _ (g u)); auto. apply (g_le true g ginv A B IP A u); auto using Rbar_le_refl.
      apply (Rbar_le_trans _ v); auto. apply Rbar_lt_le; auto.
    - apply (Rbar_lt_le_trans _ (g v)); auto. apply (g_le true g ginv A B IP v B); auto using Rbar_le_refl.
      apply (Rbar_le_trans _ u); auto. apply Rbar_lt_le; auto. }
  assert (Y3 : forall y, RbarIn (g u) (g v) y -> RbarIn u v (ginv y)).
  { intros y Y. destruct (Y0 y Y) as ((A1 & B1) & E). destruct Y as (Y1 & Y2). split.
    - destruct (Rbar_lt_le_dec u (ginv y)) as [|L]; auto. exfalso.
      apply (Rbar_lt_irrefl y). rewrite <- E at 1. apply (Rbar_le_lt_trans _ (g u)); auto.
      apply (g_le true g ginv A B IP (ginv y) u); auto; [apply Rbar_lt_le; auto|]. apply (Rbar_le_trans _ v); auto. apply Rbar_lt_le; auto.
    - destruct (Rbar_lt_le_dec (ginv y) v) as [|L]; auto. exfalso.
      apply (Rbar_lt_irrefl y). rewrite <- E at 2. apply (Rbar_lt_le_trans _ (g v)); auto.
      apply (g_le true g ginv A B IP v (ginv y)); auto; [|apply Rbar_lt_le; auto]. apply (Rbar_le_trans _ u); auto. apply Rbar_lt_le; auto. }
  split; [apply (M u v); auto|]. splits; auto.
  - intros y z Y Z L. destruct (Y0 y Y) as ((A1 & B1) & E). destruct (Y0 z Z) as ((A2 & B2) & E2).
    destruct (Rlt_or_le (ginv y) (ginv z)) as [|H]; auto. exfalso.
    pose proof (g_le true g ginv A B IP (ginv z) (ginv y) (Rbar_lt_le _ _ A2) H (Rbar_lt_le _ _ B1)) as K.
    unfold lo_end, hi_end in K. rewrite E, E2 in K. simpl in K. lra.
  - intros x (X1 & X2). destruct (I x) as (y & E1 & E2).
    { split; [apply (Rbar_le_lt_trans _ u)|apply (Rbar_lt_le_trans _ v)]; auto. }
    exists y. split; auto.
    assert (XV : Rbar_le x B) by (apply (Rbar_le_trans _ v); auto; apply Rbar_lt_le; auto).
    assert (AX : Rbar_le A x) by (apply (Rbar_le_trans _ u); auto; apply Rbar_lt_le; auto).
    split; rewrite <- ?E1; [apply (M u x)|apply (M x v)]; auto.
Qed.

Lemma ip_onto_dec g ginv A B u v : inverse_pair false g ginv A B -> Rbar_le A u -> Rbar_lt u v -> Rbar_le v B ->
  dec_onto ginv (g v) (g u) u v.
Proof.
  intros IP U UV V. pose proof IP as (M & I & O).
  assert (Y0 : forall y, RbarIn (g v) (g u) y -> betw A B (ginv y) /\ g (ginv y) = y).
  { intros y (Y1 & Y2). apply O. split.
    - apply (Rbar_le_lt_trans _ (g v)); auto. apply (g_le false g ginv A B IP v B); auto using Rbar_le_refl.
      apply (Rbar_le_trans _ u); auto. apply Rbar_lt_le; auto.
    - apply (Rbar_lt_le_trans _ (g u)); auto. apply (g_le false g ginv A B IP A u); auto using Rbar_le_refl.
      apply (Rbar_le_trans _ v); auto. apply Rbar_lt_le; auto. }
  assert (Y3 : forall y, RbarIn (g v) (g u) y -> RbarIn u v (ginv y)).
  { intros y Y. destruct (Y0 y Y) as ((A1 & B1) & E). destruct Y as (Y1 & Y2). split.
    - destruct (Rbar_lt_le_dec u (ginv y)) as [|L]; auto. exfalso.
      apply (Rbar_lt_irrefl y). rewrite <- E at 2. apply (Rbar_lt_le_trans _ (g u)); auto.
      apply (g_le false g ginv A B IP (ginv y) u); auto; [apply Rbar_lt_le; auto|]. apply (Rbar_le_trans _ v); auto. apply Rbar_lt_le; auto.
    - destruct (Rbar_lt_le_dec (ginv y) v) as [|L]; auto. exfalso.
      apply (Rbar_lt_irrefl y). rewrite <- E at 1. apply (Rbar_le_lt_trans _ (g v)); auto.
      apply (g_le false g ginv A B IP v (ginv y)); auto; [|apply Rbar_lt_le; auto]. apply (Rbar_le_trans _ u); auto. apply Rbar_lt_le; auto. }
  split; [apply (M u v); auto|]. splits; auto.
  - intros y z Y Z L. destruct (Y0 y Y) as ((A1 & B1) & E). destruct (Y0 z Z) as ((A2 & B2) & E2).
    destruct (Rlt_or_le (ginv z) (ginv y)) as [|H]; auto. exfalso.
    pose proof (g_le false g ginv A B IP (ginv y) (ginv z) (Rbar_lt_le _ _ A1) H (Rbar_lt_le _ _ B2)) as K.
    unfold lo_end, hi_end in K. rewrite E, E2 in K. simpl in K. lra.
  - intros x (X1 & X2). destruct (I x) as (y & E1 & E2).
    { split; [apply (Rbar_le_lt_trans _ u)|apply (Rbar_lt_le_trans _ v)]; auto. }
    exists y. split; auto.
    assert (XV : Rbar_le x B) by (apply (Rbar_le_trans _ v); auto; apply Rbar_lt_le; auto).
    assert (AX : Rbar_le A x) by (apply (Rbar_le_trans _ u); auto; apply Rbar_lt_le; auto).
    split; rewrite <- ?E1; [apply (M x v)|apply (M u x)]; auto.
Qed.

Lemma clamp_image inc g ginv A B s t u : inverse_pair inc g ginv A B -> within A B s -> Rbar_lt (sa s) (sb s) ->
  sa t = lo_end inc g (sa s) (sb s) -> sb t = hi_end inc g (sa s) (sb s) ->
  Rbar_le A u -> Rbar_le u B -> clamp t (g u) = g (clamp s u).
Proof.
  intros IP (W1 & W2) L E1 E2 U1 U2.
  pose proof (g_le inc g ginv A B IP) as GL.
  assert (LE : Rbar_le (sa t) (sb t)) by (rewrite E1, E2; apply GL; auto; apply Rbar_lt_le; auto).
  assert (SA : Rbar_le (sa s) B) by (apply (Rbar_le_trans _ (sb s)); auto; apply Rbar_lt_le; auto).
  assert (SB : Rbar_le A (sb s)) by (apply (Rbar_le_trans _ (sa s)); auto; apply Rbar_lt_le; auto).
  destruct (Rbar_lt_le_dec u (sa s)) as [H|H].
  { rewrite (clamp_low s); [|apply Rbar_lt_le; auto..]. pose proof (GL u (sa s) U1 (Rbar_lt_le _ _ H) SA) as K.
    unfold lo_end, hi_end in *. destruct inc.
    - rewrite clamp_low; auto; rewrite E1; auto.
    - rewrite clamp_high; auto; rewrite E2; auto. }
  destruct (Rbar_lt_le_dec (sb s) u) as [H'|H'].
  { rewrite (clamp_high s); [|apply Rbar_lt_le; auto..]. pose proof (GL (sb s) u SB (Rbar_lt_le _ _ H') U2) as K.
    unfold lo_end, hi_end in *. destruct inc.
    - rewrite clamp_high; auto; rewrite E2; auto.
    - rewrite clamp_low; auto; rewrite E1; auto. }
  rewrite (clamp_id s); auto. pose proof (GL (sa s) u W1 H U2) as K1. pose proof (GL u (sb s) U1 H' W2) as K2.
  unfold lo_end, hi_end in *. destruct inc; apply clamp_id; rewrite ?E1, ?E2; auto.
Qed.

Lemma image_general inc g ginv A B s t : inverse_pair inc g ginv A B -> within A B s ->
  isDirac s = false -> wf_seg s -> isDirac t = false ->
  sa t = lo_end inc g (sa s) (sb s) -> sb t = hi_end inc g (sa s) (sb s) ->
  (forall u v, Rbar_le (sa s) u -> Rbar_lt u v -> Rbar_le v (sb s) ->
     integrable (sf t) (lo_end inc g u v) (hi_end inc g u v) /\
     Q (sf t) (lo_end inc g u v) (hi_end inc g u v) = Q (sf s) u v) ->
  image_piece inc g A B s t.
Proof.
  intros IP Wi D W Dt E1 E2 H.
  pose proof (wf_lt s D W) as L.
  assert (Lt : Rbar_lt (sa t) (sb t)) by (rewrite E1, E2; apply (g_lt inc g ginv A B IP); auto; apply Wi).
  assert (Wt : wf_seg t) by (clear - Lt Dt; destruct t; first [exact Lt | exact I]).  
  split; [congruence|]. splits; auto.
  - intros _. rewrite E1, E2. apply H; auto using Rbar_le_refl.
  - intros u v U UV V.
    assert (LE : Rbar_le u v) by (apply Rbar_lt_le; auto).
    assert (UB : Rbar_le u B) by (apply (Rbar_le_trans _ v); auto).
    assert (AV : Rbar_le A v) by (apply (Rbar_le_trans _ u); auto).
    rewrite prob_Q; auto; [|apply Rbar_lt_le, (g_lt inc g ginv A B IP); auto].
    rewrite prob_Q; auto.
    assert (CU := clamp_image inc g ginv A B s t u IP Wi L E1 E2 U UB).
    assert (CV := clamp_image inc g ginv A B s t v IP Wi L E1 E2 AV V).
    assert (EE : Q (sf t) (clamp t (lo_end inc g u v)) (clamp t (hi_end inc g u v)) =
                 Q (sf t) (lo_end inc g (clamp s u) (clamp s v)) (hi_end inc g (clamp s u) (clamp s v))).
    { unfold lo_end, hi_end. destruct inc; rewrite CU, CV; auto. }
    rewrite EE.
    destruct (Rbar_le_lt_or_eq_dec _ _ (clamp_mono s u v (Rbar_lt_le _ _ L) LE)) as [K|K].
    + apply H; auto; apply clamp_in, Rbar_lt_le; auto.
    + rewrite K. unfold lo_end, hi_end. destruct inc; rewrite !Q_refl; auto.
Qed.

(** images under a smooth monotone function *)
Lemma image_smooth inc g ginv dginv A B s t : inverse_pair inc g ginv A B -> within A B s ->
  isDirac s = false -> wf_seg s -> has_int s -> cont_inside s ->
  derivative_on ginv dginv (lo_end inc g (sa s) (sb s)) (hi_end inc g (sa s) (sb s)) ->
  isDirac t = false ->
  sa t = lo_end inc g (sa s) (sb s) -> sb t = hi_end inc g (sa s) (sb s) ->
  (forall y, sf t y = prob_comp (sf s) ginv dginv y) ->
  image_piece inc g A B s t.
Proof.
  intros IP Wi D W HI C DV Dt E1 E2 F.
  pose proof (wf_lt s D W) as L. destruct (Wi) as (W1 & W2).
  apply (image_general inc g ginv); auto.
  intros u v U UV V.
  destruct (integrable_prim _ _ _ (HI D)) as (G & P).
  assert (P' : prim (sf s) u v G) by (apply (prim_sub (sf s) (sa s) (sb s)); auto).
  assert (UB : Rbar_le u (sb s)) by (apply (Rbar_le_trans _ v); auto; apply Rbar_lt_le; auto).
  assert (AV : Rbar_le (sa s) v) by (apply (Rbar_le_trans _ u); auto; apply Rbar_lt_le; auto).
  assert (U' : Rbar_le A u) by (apply (Rbar_le_trans _ (sa s)); auto).
  assert (V' : Rbar_le v B) by (apply (Rbar_le_trans _ (sb s)); auto).
  rewrite (prim_Q (sf s) (sa s) (sb s) G u v); auto.
  assert (DV' : forall y : R, RbarIn (lo_end inc g u v) (hi_end inc g u v) y -> is_derive ginv y (dginv y) /\ continuous dginv y).
  { intros y (Y1 & Y2). apply DV. pose proof (g_le inc g ginv A B IP (sa s) u W1 U) as K1.
    pose proof (g_le inc g ginv A B IP v (sb s)) as K2.
    assert (K1' := K1 (Rbar_le_trans _ _ _ UB W2)).
    assert (K2' := K2 (Rbar_le_trans _ _ _ W1 AV) V W2).
    unfold lo_end, hi_end in *. destruct inc; split.
    - apply (Rbar_le_lt_trans _ (g u)); auto.
    - apply (Rbar_lt_le_trans _ (g v)); auto.
    - apply (Rbar_le_lt_trans _ (g v)); auto.
    - apply (Rbar_lt_le_trans _ (g u)); auto. }
  assert (C' : forall x : R, RbarIn u v x -> continuous (sf s) x).
  { intros x (X1 & X2). apply C; auto. split; [apply (Rbar_le_lt_trans _ u)|apply (Rbar_lt_le_trans _ v)]; auto. }
  assert (R0 : integrable (fun y => sf s (ginv y) * Rabs (dginv y)) (lo_end inc g u v) (hi_end inc g u v) /\
          Q (fun y => sf s (ginv y) * Rabs (dginv y)) (lo_end inc g u v) (hi_end inc g u v) = G v - G u).
  { unfold lo_end, hi_end in *. destruct inc.
    - apply (subst_inc (sf s) u v G ginv dginv (g u) (g v)); auto. apply (ip_onto_inc g ginv A B); auto.
    - apply (subst_dec (sf s) u v G ginv dginv (g v) (g u)); auto. apply (ip_onto_dec g ginv A B); auto. }
  destruct R0 as (R1 & R2). split.
  - eapply integrable_ext; [|exact R1]. intros y _. symmetry. apply F.
  - rewrite <- R2. apply Q_ext; [|intros y _; apply F]. apply (g_lt inc g ginv A B IP); auto.
Qed.

(** the linear map *)
Lemma affine_ip shift scale : scale <> 0 ->
  inverse_pair (rlt 0 scale) (affine shift scale) (fun y => (y - shift) * (1 / scale)) m_infty p_infty.
Proof.
  intros N. split; [|split].
  - intros x y _ L _. destruct (rltP 0 scale) as [S|S].
    + destruct x as [x| |]; destruct y as [y| |]; simpl in *; try tauto; destruct (Rlt_dec 0 scale); simpl; auto; try lra. nra.
    + destruct x as [x| |]; destruct y as [y| |]; simpl in *; try tauto; destruct (Rlt_dec 0 scale); simpl; auto; try lra. nra.
  - intros x _. exists (x * scale + shift). split; auto. field. auto.
  - intros y _. split; [split; exact I|]. simpl. f_equal. field. auto.
Qed.

Lemma image_affine shift scale s t : wf_seg s -> has_int s -> seg_sas shift scale s = Ok t -> scale <> 0 ->
  image_piece (rlt 0 scale) (affine shift scale) m_infty p_infty s t.
Proof.
  intros W HI E N.
  pose proof (affine_ip shift scale N) as IP.
  destruct (isDirac s) eqn:D.
  - destruct s as [| | | |a m|]; try discriminate. simpl in E. injection E as <-.
    split; auto. splits; auto.
    + intros H; discriminate.
    + unfold lo_end. destruct (rlt 0 scale); auto.
    + unfold hi_end. destruct (rlt 0 scale); auto.
    + intros u v _ L _. unfold lo_end, hi_end.
      destruct IP as (M & _).
      assert (K : forall x y, (if rlt 0 scale then Rbar_lt (affine shift scale x) (affine shift scale y) else Rbar_lt (affine shift scale y) (affine shift scale x)) <-> Rbar_lt x y).
      { intros x y. assert (T : forall z, Rbar_le m_infty z /\ Rbar_le z p_infty) by (intros []; simpl; auto). split.
        - intros H. destruct (Rbar_lt_le_dec x y) as [|H']; auto. exfalso.
          destruct (Rbar_le_lt_or_eq_dec _ _ H') as [L'| ->].
          + pose proof (M y x (proj1 (T y)) L' (proj2 (T x))) as K. destruct (rlt 0 scale);
            apply (Rbar_lt_irrefl (affine shift scale x)); eapply Rbar_lt_trans; eauto.
          + destruct (rlt 0 scale); now apply Rbar_lt_irrefl in H.
        - intros H. apply M; auto; apply T. }
      pose proof (K u a) as K1. pose proof (K a v) as K2.
      change (Finite (a * scale + shift)) with (affine shift scale a).
      unfold prob. destruct (rlt 0 scale);
      repeat match goal with |- context [Rbar_lt_dec ?x ?y] => destruct (Rbar_lt_dec x y) end; auto; try tauto;
      exfalso; tauto.
  - pose proof (wf_lt s D W) as L.
    assert (Dt : isDirac t = false /\ sa t = lo_end (rlt 0 scale) (affine shift scale) (sa s) (sb s) /\
                 sb t = hi_end (rlt 0 scale) (affine shift scale) (sa s) (sb s) /\
                 forall y, sf t y = shift_and_scale (sf s) (1 / scale) shift y).
    { unfold lo_end, hi_end, affine. destruct s; try discriminate; simpl in E; destruct (reqP scale 0); try tauto;
      destruct (rltP 0 scale); injection E as <-; simpl; splits; auto; destruct (Rlt_dec 0 scale); auto; tauto. }
    destruct Dt as (Dt & E1 & E2 & F).
    apply (image_general (rlt 0 scale) (affine shift scale) (fun y => (y - shift) * (1 / scale))); auto.
    { split; [destruct (sa s)|destruct (sb s)]; simpl; auto. }
    intros u v U UV V.
    destruct (integrable_prim _ _ _ (HI D)) as (G & P).
    assert (P' : prim (sf s) u v G) by (apply (prim_sub (sf s) (sa s) (sb s)); auto).
    assert (UB : Rbar_le u (sb s)) by (apply (Rbar_le_trans _ v); auto; apply Rbar_lt_le; auto).
    assert (AV : Rbar_le (sa s) v) by (apply (Rbar_le_trans _ u); auto; apply Rbar_lt_le; auto).
    rewrite (prim_Q (sf s) (sa s) (sb s) G u v); auto.
    assert (FE : forall y, Rabs (1 / scale) * sf s (1 / scale * y + - shift * (1 / scale)) = sf t y).
    { intros y. rewrite F. unfold shift_and_scale. do 2 f_equal. ring. }
    assert (T : forall z, Rbar_le m_infty z /\ Rbar_le z p_infty) by (intros []; simpl; auto).
    assert (R0 : integrable (fun y => Rabs (1 / scale) * sf s (1 / scale * y + - shift * (1 / scale))) (lo_end (rlt 0 scale) (affine shift scale) u v) (hi_end (rlt 0 scale) (affine shift scale) u v) /\
          Q (fun y => Rabs (1 / scale) * sf s (1 / scale * y + - shift * (1 / scale))) (lo_end (rlt 0 scale) (affine shift scale) u v) (hi_end (rlt 0 scale) (affine shift scale) u v) = G v - G u).
    { assert (K0 : 1 / scale <> 0) by (apply Rmult_integral_contrapositive; split; [lra|apply Rinv_neq_0_compat; auto]).
      apply (subst_lin (sf s) u v G (1 / scale) (- shift * (1 / scale))); auto.
      assert (EQ : forall y, 1 / scale * y + - shift * (1 / scale) = (y - shift) * (1 / scale)) by (intros; ring).
      destruct (rltP 0 scale) as [S|S].
      - left. split; [apply Rdiv_lt_0_compat; lra|].
        destruct (ip_onto_inc (affine shift scale) _ _ _ u v IP (proj1 (T u)) UV (proj2 (T v))) as (I1 & I2 & I3 & I4 & I5).
        split; auto. splits; auto; intros; rewrite ?EQ; auto.
        destruct (I5 x H) as (y & Y1 & Y2). exists y. rewrite EQ; auto.
      - right. split.
        { replace (1 / scale) with (- (1 / - scale)) by (field; auto). assert (0 < 1 / - scale) by (apply Rdiv_lt_0_compat; lra). lra. }
        destruct (ip_onto_dec (affine shift scale) _ _ _ u v IP (proj1 (T u)) UV (proj2 (T v))) as (I1 & I2 & I3 & I4 & I5).
        split; auto. splits; auto; intros; rewrite ?EQ; auto.
        destruct (I5 x H) as (y & Y1 & Y2). exists y. rewrite EQ; auto. }
    destruct R0 as (R1 & R2). split.
    + eapply integrable_ext; [|exact R1]. intros y _. apply FE.
    + rewrite <- R2. symmetry. apply Q_ext; [|intros y _; apply FE]. apply (g_lt _ _ _ _ _ IP); auto; apply T.
Qed.
