(** Proofs about conditional distributions: laws restricted to an interval. *)
From Coq Require Import Reals Lra Lia List Bool Sorted Permutation.
From Coquelicot Require Import Coquelicot.
From Verif Require Import Base Bisect Seg Piecewise PiecewiseSpec PiecewiseFacts PiecewiseFacts2 PiecewiseFacts3 PiecewiseFacts4 Integral IntegralFacts SegInt SegIntSpec IntParts IntPartsFacts Indep IndepSpec AtomFacts AtomFacts2 AtomFacts3 ConvolFacts ExtrFacts2 ExtrFacts3 QuotFacts ProdAsmFacts DensLaw ProdConstFacts.
From Verif Require TransformSpec.
Import List ListNotations.
Open Scope R_scope.

Lemma lt_irrefl (x : Rbar) : ~ Rbar_lt x x.
Proof. destruct x; simpl; auto. lra. Qed.
Lemma watom_same h l l' : (forall z, h z = 0 \/ pm l z = pm l' z) -> watom h l = watom h l'.
Proof.
  intros E. set (ps := nodup Req_EM_T (dirac_pos l ++ dirac_pos l')).
  rewrite (watom_positions h l ps), (watom_positions h l' ps).
  - apply sumR_ext. intros z _. destruct (E z) as [-> | ->]; ring.
  - apply NoDup_nodup.
  - intros a Ha. apply nodup_In, in_app_iff; auto.
  - apply NoDup_nodup.
  - intros a Ha. apply nodup_In, in_app_iff; auto.
Qed.
(** equal density and atoms between u and v: equal probability *)
Lemma agree_law l l' u v pts : Forall wf_seg l -> Forall TransformSpec.has_int l -> Forall wf_seg l' -> Forall TransformSpec.has_int l' -> Rbar_lt u v ->
  (forall t : R, RbarIn u v t -> ~ In t pts -> dens l t = dens l' t) -> (forall z : R, RbarIn u v z -> pm l z = pm l' z) -> pprob l u v = pprob l' u v.
Proof.
  intros W H W' H' L D P. rewrite (pprob_parts l), (pprob_parts l'). f_equal.
  - apply (has_int_unique _ _ _ _ (cont_law l u v L W H)). apply (has_int_ext_fin _ _ pts _ _ _ (cont_law l' u v L W' H')). intros t T N. symmetry; auto.
  - apply watom_same. intros z. unfold between_ind. destruct (Rbar_lt_dec u z) as [A|A]; auto. destruct (Rbar_lt_dec z v) as [B|B]; auto. right. apply P. split; auto.
Qed.
Lemma pprob_empty l u v : ~ Rbar_lt u v -> pprob l u v = 0.
Proof.
  intros N. unfold TransformSpec.pprob. induction l as [|s l IH]; auto. cbn [map]. rewrite sumR_cons, IH, Rplus_0_r.
  destruct (isDirac s) eqn:D.
  - destruct s as [| | | |a m|]; try discriminate. cbn [TransformSpec.prob]. destruct (Rbar_lt_dec u a); auto. destruct (Rbar_lt_dec a v); auto. exfalso. apply N. apply (Rbar_lt_trans u a v); auto.
  - assert (E : prob s u v = if Rbar_lt_dec (rmaxb u (sa s)) (rminb v (sb s)) then RInt_gen (sf s) (at_r (rmaxb u (sa s))) (at_l (rminb v (sb s))) else 0) by (destruct s; try discriminate; reflexivity).
    rewrite E. destruct (Rbar_lt_dec _ _) as [K|K]; auto. exfalso. apply N.
    apply (Rbar_le_lt_trans _ (rmaxb u (sa s)) _); [unfold TransformSpec.rmaxb; destruct (Rbar_le_dec u (sa s)); auto using Rbar_le_refl|].
    apply (Rbar_lt_le_trans _ (rminb v (sb s)) _); auto. unfold TransformSpec.rminb. destruct (Rbar_le_dec v (sb s)) as [J|J]; auto using Rbar_le_refl. apply Rbar_not_le in J. apply Rbar_lt_le; auto.
Qed.
Lemma pprob_zero l u v pts : Forall wf_seg l -> Forall TransformSpec.has_int l ->
  (forall t : R, RbarIn u v t -> ~ In t pts -> dens l t = 0) -> (forall z : R, RbarIn u v z -> pm l z = 0) -> pprob l u v = 0.
Proof.
  intros W H D P. destruct (Rbar_lt_dec u v) as [L|L]; [|apply pprob_empty; auto].
  rewrite (agree_law l [] u v pts); auto. 
Qed.
Lemma pprob_cut l u (c : R) v : Forall wf_seg l -> Forall TransformSpec.has_int l -> Rbar_lt u c -> Rbar_lt c v ->
  pprob l u v = pprob l u c + pm l c + pprob l c v.
Proof.
  intros W H A B. pose proof (Rbar_lt_trans u c v A B) as L. rewrite (pprob_parts l u v), (pprob_parts l u c), (pprob_parts l c v).
  assert (E : pprob (getSegments l) u v = pprob (getSegments l) u c + pprob (getSegments l) c v).
  { apply (has_int_unique _ _ _ _ (cont_law l u v L W H)). eapply has_int_cat; apply cont_law; auto. }
  assert (E' : watom (between_ind u v) l = watom (between_ind u c) l + pm l c + watom (between_ind c v) l).
  { rewrite <- (watom_pm l c). unfold watom. rewrite <- !sumR_plus. apply sumR_ext. intros s _. destruct s as [| | | |x m|]; try ring. unfold between_ind.
    destruct (Req_EM_T x c) as [->|N].
    - destruct (Rbar_lt_dec u c); [|tauto]. destruct (Rbar_lt_dec c v); [|tauto]. destruct (Rbar_lt_dec c c) as [K|K]; [simpl in K; lra|]. ring.
    - destruct (Rlt_dec x c) as [X|X].
      + assert (XV : Rbar_lt x v) by (apply (Rbar_lt_trans x c v); auto). destruct (Rbar_lt_dec x v); [|tauto]. destruct (Rbar_lt_dec x c) as [K|K]; [|simpl in K; lra].
        destruct (Rbar_lt_dec c x) as [K'|K']; [simpl in K'; lra|]. destruct (Rbar_lt_dec u x); ring.
      + assert (X' : c < x) by lra. assert (UX : Rbar_lt u x) by (apply (Rbar_lt_trans u c x); auto). destruct (Rbar_lt_dec u x); [|tauto].
        destruct (Rbar_lt_dec x c) as [K|K]; [simpl in K; lra|]. destruct (Rbar_lt_dec c x) as [K'|K']; [|simpl in K'; lra]. destruct (Rbar_lt_dec x v); ring. }
  rewrite E, E'. ring.
Qed.
Lemma total_mass_pprob l : Forall wf_seg l -> total_mass l = pprob l m_infty p_infty.
Proof.
  intros W. unfold total_mass, TransformSpec.pprob. apply sumR_ext. intros s Hs. rewrite Forall_forall in W. destruct (isDirac s) eqn:D; [|apply mass_prob; auto].
  destruct s as [| | | |a m|]; try discriminate. cbn [mass TransformSpec.prob]. destruct (Rbar_lt_dec m_infty a) as [_|K]; [|simpl in K; tauto]. destruct (Rbar_lt_dec a p_infty) as [_|K]; [auto|simpl in K; tauto].
Qed.
Lemma cdf_pprob l (x : R) : Forall wf_seg l -> cdf_spec l x = pprob l m_infty x + pm l x.
Proof.
  intros W. unfold cdf_spec, TransformSpec.pprob, pm. rewrite <- sumR_plus. apply sumR_ext. intros s Hs. rewrite Forall_forall in W.
  destruct (isDirac s) eqn:D; [|rewrite mass_upto_prob by auto; destruct s; try discriminate; ring].
  destruct s as [| | | |a m|]; try discriminate. cbn [mass_upto TransformSpec.prob]. destruct (Rbar_lt_dec m_infty a) as [_|K]; [|simpl in K; tauto].
  destruct (Rle_dec a x), (Rbar_lt_dec a x) as [K|K]; simpl in K; destruct (Req_EM_T a x); try lra.
Qed.
(** law restricted to (lo,hi) *)
Definition ind_in (lo hi : Rbar) (t : R) : bool := if Rbar_lt_dec lo t then if Rbar_lt_dec t hi then true else false else false.
Lemma ind_in_true lo hi t : ind_in lo hi t = true <-> RbarIn lo hi t.
Proof. unfold ind_in, RbarIn. destruct (Rbar_lt_dec lo t), (Rbar_lt_dec t hi); split; intros; auto; try discriminate; tauto. Qed.
Lemma restrict_law l d lo hi pts u v : Forall wf_seg l -> Forall TransformSpec.has_int l -> Forall wf_seg d -> Forall TransformSpec.has_int d ->
  (forall t : R, ~ In t pts -> dens l t = if ind_in lo hi t then dens d t else 0) -> (forall z : R, pm l z = if ind_in lo hi z then pm d z else 0) -> Rbar_lt u v ->
  pprob l u v = pprob d (rmaxb u lo) (rminb v hi).
Proof.
  intros W H W' H' D P L.
  set (lo' := rmaxb u lo). set (hi' := rminb v hi).
  assert (L1 : Rbar_le u lo' /\ forall t : R, Rbar_lt lo' t <-> Rbar_lt u t /\ Rbar_lt lo t).
  { unfold lo', TransformSpec.rmaxb. destruct (Rbar_le_dec u lo) as [K|K].
    - split; auto. intros t. split; [intros T; split; auto; apply (Rbar_le_lt_trans u lo t); auto|tauto].
    - apply Rbar_not_le in K. split; [apply Rbar_le_refl|]. intros t. split; [intros T; split; auto; apply (Rbar_lt_trans lo u t); auto|tauto]. }
  assert (L2 : Rbar_le hi' v /\ forall t : R, Rbar_lt t hi' <-> Rbar_lt t v /\ Rbar_lt t hi).
  { unfold hi', TransformSpec.rminb. destruct (Rbar_le_dec v hi) as [K|K].
    - split; [apply Rbar_le_refl|]. intros t. split; [intros T; split; auto; apply (Rbar_lt_le_trans t v hi); auto|tauto].
    - apply Rbar_not_le in K. split; [apply Rbar_lt_le; auto|]. intros t. split; [intros T; split; auto; apply (Rbar_lt_trans t hi v); auto|tauto]. }
  clearbody lo' hi'. destruct L1 as (U & L1), L2 as (V & L2).
  destruct (Rbar_lt_dec lo' hi') as [LH|LH].
  2: { rewrite (pprob_empty d) by auto. apply (pprob_zero l u v pts); auto.
       - intros t (T1 & T2) N. rewrite D by auto. destruct (ind_in lo hi t) eqn:E; auto. apply ind_in_true in E. destruct E. exfalso. apply LH.
         apply (Rbar_lt_trans lo' t hi'); [apply L1|apply L2]; auto.
       - intros z (T1 & T2). rewrite P. destruct (ind_in lo hi z) eqn:E; auto. apply ind_in_true in E. destruct E. exfalso. apply LH.
         apply (Rbar_lt_trans lo' z hi'); [apply L1|apply L2]; auto. }
  rewrite (pprob_parts l), (pprob_parts d). f_equal.
  - apply (has_int_unique _ _ _ _ (cont_law l u v L W H)).
    pose proof (cont_law d lo' hi' LH W' H') as M.
    assert (M0 : has_int (dens l) lo' hi' (pprob (getSegments d) lo' hi')).
    { apply (has_int_ext_fin _ _ pts _ _ _ M). intros t (T1 & T2) N. rewrite D by auto. assert (E : ind_in lo hi t = true) by (apply ind_in_true; apply L1 in T1; apply L2 in T2; split; tauto). rewrite E. auto. }
    assert (Z : forall a b, Rbar_lt a b -> (forall t : R, RbarIn a b t -> ind_in lo hi t = false) -> has_int (dens l) a b 0).
    { intros a b AB E. apply (has_int_ext_fin (fun _ => 0) _ pts _ _ _ (has_int_zero _ _ _ AB (fun t _ => eq_refl))). intros t T N. rewrite D, E; auto. }
    assert (M1 : has_int (dens l) u hi' (pprob (getSegments d) lo' hi')).
    { destruct (Rbar_le_lt_or_eq_dec _ _ U) as [K| ->]; auto. rewrite <- (Rplus_0_l (pprob _ _ _)). apply has_int_cat with lo'; auto. apply Z; auto.
      intros t (T1 & T2). destruct (ind_in lo hi t) eqn:E; auto. apply ind_in_true in E. destruct E. exfalso. apply (lt_irrefl lo'). apply (Rbar_lt_trans lo' t lo'); auto. apply L1; auto. }
    destruct (Rbar_le_lt_or_eq_dec _ _ V) as [K| <-]; auto. rewrite <- (Rplus_0_r (pprob _ _ _)). apply has_int_cat with hi'; auto. apply Z; auto.
    intros t (T1 & T2). destruct (ind_in lo hi t) eqn:E; auto. apply ind_in_true in E. destruct E. exfalso. apply (lt_irrefl hi'). apply (Rbar_lt_trans hi' t hi'); auto. apply L2; auto.
  - transitivity (watom (between_ind lo' hi') l).
    + set (ps := nodup Req_EM_T (dirac_pos l)).
      rewrite (watom_positions _ l ps), (watom_positions (between_ind lo' hi') l ps); try (apply NoDup_nodup); try (intros a Ha; apply nodup_In; auto).
      apply sumR_ext. intros z _. rewrite P. destruct (ind_in lo hi z) eqn:E; [|ring]. apply ind_in_true in E. destruct E as (E1 & E2). f_equal.
      unfold between_ind. specialize (L1 z). specialize (L2 z). destruct (Rbar_lt_dec u z), (Rbar_lt_dec lo' z), (Rbar_lt_dec z v), (Rbar_lt_dec z hi'); auto; tauto.
    + apply watom_same. intros z. unfold between_ind. destruct (Rbar_lt_dec lo' z) as [A|A]; auto. destruct (Rbar_lt_dec z hi') as [B|B]; auto. right.
      rewrite P. assert (E : ind_in lo hi z = true) by (apply ind_in_true; apply L1 in A; apply L2 in B; split; tauto). rewrite E. auto.
Qed.
