(** Proofs about functions of one variable, part 3: exp, log, atan, tanh, sigmoid, tan, powers. *)
From Coq Require Import Reals Lra List Bool Sorted Permutation FunctionalExtensionality.
From Coquelicot Require Import Coquelicot.
From Verif Require Import Base Bisect Seg Piecewise PiecewiseSpec PiecewiseFacts PiecewiseFacts2 PiecewiseFacts3 PiecewiseFacts4
  Integral IntegralFacts SegInt SegIntSpec SegIntFacts SubstFacts Transform TransformSpec TransformFacts TransformFacts2
  TransformFacts3 OperationFacts TransformFacts4 TransformFacts5 TransformMain Func FuncSpec FuncFacts FuncFacts2.
Import List ListNotations.
Open Scope R_scope.

Lemma within_all l : Forall (within m_infty p_infty) l.
Proof. apply Forall_forall. intros s _. split; [destruct (sa s)|destruct (sb s)]; simpl; auto. Qed.

Lemma ends_finite g a b : is_finite (g a) -> is_finite (g b) -> ends_ok g a b.
Proof. intros A B. unfold ends_ok. rewrite <- A, <- B. splits; discriminate. Qed.

Lemma ends_split_finite g l : (forall x, is_finite (g x)) -> Forall (ends_ok_split g) l.
Proof.
  intros F. apply Forall_forall. intros s _. unfold ends_ok_split.
  destruct (isDirac s); [auto|]. destruct (blt (sa s) 0 && blt 0 (sb s))%bool; [split|]; apply ends_finite; auto.
Qed.

Lemma exp_ends a b : Rbar_lt a b -> (b = p_infty -> Rbar_le 0 a) -> ends_ok exp_f a b.
Proof.
  intros L H. unfold ends_ok. destruct a as [a| |]; destruct b as [b| |]; cbn in *; try tauto; splits; try discriminate; intros.
  - apply exp_pos.
Qed.
Lemma exp_ends_split l : Forall wf_seg l -> Forall (ends_ok_split exp_f) l.
Proof.
  intros W. rewrite Forall_forall in *. intros s Hs. specialize (W s Hs). unfold ends_ok_split.
  destruct (isDirac s) eqn:D; [destruct s; try discriminate; reflexivity|].
  pose proof (wf_lt s D W) as L.
  destruct (bltP (sa s) 0) as [L1|L1]; destruct (bltP 0 (sb s)) as [L2|L2]; cbn [andb].
  - split; apply exp_ends; auto; [discriminate|intros; apply Rbar_le_refl].
  - apply exp_ends; auto. intros EE. exfalso. apply L2. rewrite EE. exact I.
  - apply exp_ends; auto. intros _. apply Rbar_not_lt_le; auto.
  - apply exp_ends; auto. intros _. apply Rbar_not_lt_le; auto.
Qed.

Lemma exp_law eps l : smooth eps l -> image_sep eps exp_f l ->
  exists q, exp_distr eps l = Ok q /\ smooth eps (segs q) /\ image_law true exp_f m_infty p_infty l (segs q) /\
    image_density exp_f exp_inv exp_der l (segs q).
Proof.
  intros G S. apply (comp_law eps true exp_f exp_inv exp_der true m_infty p_infty); auto using exp_ip, within_all.
  - apply exp_dv'.
  - apply exp_ends_split. apply G.
Qed.
Lemma atan_law eps l : smooth eps l -> image_sep eps atan_f l ->
  exists q, atan_distr eps l = Ok q /\ smooth eps (segs q) /\ image_law true atan_f m_infty p_infty l (segs q) /\
    image_density atan_f atan_inv atan_der l (segs q).
Proof.
  intros G S. apply (comp_law eps true atan_f atan_inv atan_der false m_infty p_infty); auto using atan_ip, within_all, atan_dv.
  apply ends_split_finite. intros []; reflexivity.
Qed.
Lemma tanh_law eps l : smooth eps l -> image_sep eps tanh_f l ->
  exists q, tanh_distr eps l = Ok q /\ smooth eps (segs q) /\ image_law true tanh_f m_infty p_infty l (segs q) /\
    image_density tanh_f tanh_inv tanh_der l (segs q).
Proof.
  intros G S. apply (comp_law eps true tanh_f tanh_inv tanh_der false m_infty p_infty); auto using tanh_ip, within_all, tanh_dv.
  apply ends_split_finite. intros []; reflexivity.
Qed.
Lemma sigm_law eps l : smooth eps l -> image_sep eps sigm_f l ->
  exists q, sigm_distr eps l = Ok q /\ smooth eps (segs q) /\ image_law true sigm_f m_infty p_infty l (segs q) /\
    image_density sigm_f sigm_inv sigm_der l (segs q).
Proof.
  intros G S. apply (comp_law eps true sigm_f sigm_inv sigm_der false m_infty p_infty); auto using sigm_ip, within_all, sigm_dv.
  apply ends_split_finite. intros []; reflexivity.
Qed.
Lemma tan_law eps (A B : R) l : - PI / 2 < A -> A < B -> B < PI / 2 -> smooth eps l -> Forall (within (Finite A) (Finite B)) l -> image_sep eps tan_f l ->
  exists q, tan_distr eps l = Ok q /\ smooth eps (segs q) /\ image_law true tan_f (Finite A) (Finite B) l (segs q) /\
    image_density tan_f tan_inv tan_der l (segs q).
Proof.
  intros HA AB HB G Wi S. apply (comp_law eps true tan_f tan_inv tan_der false (Finite A) (Finite B)); auto using tan_ip, tan_dv.
  destruct G as (_ & W & _). rewrite Forall_forall in *. intros s Hs. specialize (W s Hs). destruct (Wi s Hs) as (W1 & W2). pose proof (wf_le s W) as L.
  unfold ends_ok_split.
  assert (F1 : is_finite (tan_f (sa s))) by (destruct (sa s) as [a| |]; try (exfalso; exact W1); [reflexivity|destruct (sb s); exfalso; auto]).
  assert (F2 : is_finite (tan_f (sb s))) by (destruct (sb s) as [a| |]; try (exfalso; exact W2); [reflexivity|destruct (sa s); exfalso; auto]).
  destruct (isDirac s); auto. destruct (blt (sa s) 0 && blt 0 (sb s))%bool; [split|]; apply ends_finite; auto; reflexivity.
Qed.

(** log *)
Lemma log_f_eq : log_f = ln_ext.
Proof.
  extensionality x. destruct x as [x| |]; auto. unfold log_f, ln_ext. destruct (rltP 0 x); destruct (Rlt_dec 0 x); auto; tauto.
Qed.
Lemma log_law0 eps l : smooth eps l -> Forall (within 0 p_infty) l -> (forall a m, In (DiracSeg a m) l -> a <> 0) -> image_sep eps ln_ext l ->
  exists q, copyLogComposition eps l ln_ext exp exp = Ok q /\ smooth eps (segs q) /\ image_law true ln_ext 0 p_infty l (segs q).
Proof.
  intros (O & W & DS & HI & C) Wi NZ S. unfold copyLogComposition.
  set (pts := [Finite (1/2); Finite 1; Finite 2]).
  assert (S0 : StronglySorted Rbar_lt pts) by (repeat constructor; simpl; lra).
  destruct (splitByPoints_ok eps l pts S0 O W DS) as (p & E & Es & _). rewrite E. cbn [rbind]. rewrite Es.
  destruct (split_all_ordered pts l S0 O W) as (O' & W' & P').
  assert (PR : forall u v, Rbar_le u v -> pprob (split_all pts l) u v = pprob l u v) by (intros; apply split_all_prob; auto).
  destruct (comp_law eps true ln_ext exp exp false 0 p_infty (split_all pts l)) as (q & Q1 & Q2 & (Q3 & Q4 & Q5) & _); auto.
  - apply ln_ip. simpl; auto.
  - unfold smooth. splits; auto.
    + apply dirac_sep_pos. rewrite P'. apply dirac_sep_pos; auto.
    + apply (split_all_prob pts l 0 0); auto using Rbar_le_refl.
    + apply split_all_cont; auto.
  - apply split_all_within; auto.
  - apply exp_dv.
  - apply Forall_forall. intros s Hs. unfold ends_ok_split.
    assert (Wi' : within 0 p_infty s) by (pose proof (split_all_within pts l 0 p_infty S0 W Wi) as H; rewrite Forall_forall in H; auto).
    assert (Ws : wf_seg s) by (rewrite Forall_forall in W'; auto).
    assert (NI : forall y, In y pts -> ~ inside s y) by (intros; apply (split_no_inside pts l); auto).
    destruct (isDirac s) eqn:D.
    + destruct s as [| | | |a m|]; try discriminate. simpl.
      assert (HH : In (DiracSeg a m) (getDiracs (split_all pts l))) by (apply filter_In; auto).
      rewrite split_diracs in HH; auto. apply filter_In in HH. destruct HH as (HH & _). pose proof (NZ a m HH).
      destruct Wi' as (W1 & _). simpl in W1. destruct (Rlt_dec 0 a); [reflexivity|lra].
    + pose proof (wf_lt s D Ws) as L. destruct Wi' as (W1 & _).
      rewrite (proj2 (blt_false (sa s) 0)) by auto. cbn [andb].
      assert (N1 := NI (1/2) (or_introl eq_refl)). assert (N2 := NI 2 (or_intror (or_intror (or_introl eq_refl)))). unfold inside in N1, N2.
      assert (NB : sa s <> p_infty) by (intros H; rewrite H in L; destruct (sb s); simpl in L; tauto).
      assert (NM : sb s <> m_infty) by (intros H; rewrite H in L; destruct (sa s); simpl in L; tauto).
      destruct (sa s) as [a| |]; try tauto. destruct (sb s) as [b| |]; try tauto; unfold ends_ok; simpl in *;
        destruct (Rlt_dec 0 a) as [PA|PA]; splits; intros HH; try discriminate;
        try (destruct (Rlt_dec 0 b) as [PB|PB]; try discriminate; try lra); simpl; auto;
        first [exfalso; apply N1; split; auto; lra
              |rewrite <- ln_1; apply ln_increasing; try lra; apply Rnot_le_lt; intros HX; apply N1; split; auto; lra
              |rewrite <- ln_1; apply ln_increasing; try lra; apply Rnot_le_lt; intros HX; apply N2; split; auto; lra].
  - apply image_sep_pos. rewrite P'. apply image_sep_pos; auto.
  - exists q. split; [exact Q1|]. split; [exact Q2|]. split; [auto|]. split; [rewrite <- P'; auto|].
    intros u v U UV V. rewrite <- PR by (apply Rbar_lt_le; auto). apply (Q5 u v); auto.
Qed.
Lemma nonneg_iff l : is_nonneg l = true <-> forall s, In s l -> if isDirac s then Rbar_lt 0 (sa s) else Rbar_le 0 (sa s).
Proof.
  unfold is_nonneg. rewrite forallb_forall. split; intros H s Hs; specialize (H s Hs); destruct (isDirac s).
  - apply negb_true_iff, ble_false in H. auto.
  - apply negb_true_iff, blt_false in H. auto.
  - apply negb_true_iff, ble_false. auto.
  - apply negb_true_iff, blt_false. auto.
Qed.
Lemma log_law eps l : smooth eps l -> (forall s, In s l -> if isDirac s then Rbar_lt 0 (sa s) else Rbar_le 0 (sa s)) -> image_sep eps ln_ext l ->
  exists q, log_distr eps l = Ok q /\ smooth eps (segs q) /\ image_law true ln_ext 0 p_infty l (segs q).
Proof.
  intros G NN S. unfold log_distr. rewrite (proj2 (nonneg_iff l) NN). rewrite log_f_eq.
  apply (log_law0 eps l); auto.
  - apply Forall_forall. intros s Hs. specialize (NN s Hs). split; [|destruct (sb s); simpl; auto].
    destruct (isDirac s); auto. apply Rbar_lt_le; auto.
  - intros a m Ha. specialize (NN _ Ha). simpl in NN. lra.
Qed.

(** composing laws *)
Lemma law_comp inc1 g1 ginv1 inc2 g2 A B l q1 q2 : inverse_pair inc1 g1 ginv1 A B -> 
  (forall a, In a (dirac_pos l) -> is_finite (g1 (Finite a))) ->
  image_law inc1 g1 A B l q1 -> image_law inc2 g2 (lo_end inc1 g1 A B) (hi_end inc1 g1 A B) q1 q2 ->
  image_law (Bool.eqb inc1 inc2) (fun x => g2 (g1 x)) A B l q2.
Proof.
  intros IP F (W1 & P1 & L1) (W2 & P2 & L2). split; [|split].
  - unfold lo_end, hi_end in *. destruct inc1; destruct inc2; exact W2.
  - eapply Permutation_trans; [|exact P2]. eapply Permutation_trans; [|apply Permutation_map; exact P1].
    rewrite map_map. replace (map (fun a : R => real (g2 (g1 a))) (dirac_pos l)) with (map (fun a : R => real (g2 (real (g1 a)))) (dirac_pos l)); [auto|].
    apply map_ext_in. intros a Ha. f_equal. f_equal. apply F; auto.
  - intros u v U UV V. rewrite <- (L1 u v) by auto.
    pose proof (g_lt inc1 g1 ginv1 A B IP u v U UV V) as K.
    pose proof (g_le inc1 g1 ginv1 A B IP A u (Rbar_le_refl _) U (Rbar_le_trans _ _ _ (Rbar_lt_le _ _ UV) V)) as K1.
    pose proof (g_le inc1 g1 ginv1 A B IP v B (Rbar_le_trans _ _ _ U (Rbar_lt_le _ _ UV)) V (Rbar_le_refl _)) as K2.
    unfold lo_end, hi_end in *. destruct inc1; destruct inc2; simpl; rewrite <- L2; auto.
Qed.
Lemma law_mono inc g ginv A B A' B' l q : inverse_pair inc g ginv A B -> Rbar_le A A' -> Rbar_le B' B -> Rbar_le A' B' ->
  Forall (within (lo_end inc g A' B') (hi_end inc g A' B')) q ->
  image_law inc g A B l q -> image_law inc g A' B' l q.
Proof.
  intros IP HA HB HAB W (_ & P & L). split; [|split]; auto.
  intros u v U UV V. apply L; auto; eapply Rbar_le_trans; eauto.
Qed.

Lemma sep_map eps (g : Rbar -> Rbar) l q (g2 : Rbar -> Rbar) : Permutation (map (fun a : R => real (g a)) (dirac_pos l)) (dirac_pos q) ->
  ForallOrdPairs (fun a b => eps < Rabs (real (g2 (Finite (real (g (Finite a))))) - real (g2 (Finite (real (g (Finite b))))))) (dirac_pos l) -> image_sep eps g2 q.
Proof.
  intros P F. apply image_sep_pos.
  apply (FOP_perm _ (map (fun a : R => real (g a)) (dirac_pos l))); auto.
  - intros x y. rewrite Rabs_minus_sym. auto.
  - clear P. induction F as [|a r H F IH]; [constructor|]. simpl. constructor; auto.
    apply Forall_forall. intros y Hy. apply in_map_iff in Hy. destruct Hy as (b & <- & Hb). rewrite Forall_forall in H. exact (H b Hb).
Qed.

Lemma law_ext inc g h A B l q : (forall x, g x = h x) -> image_law inc g A B l q -> image_law inc h A B l q.
Proof. intros E. replace h with g; auto. extensionality x; auto. Qed.
