(** Expectations of discrete variables and of mixtures. *)
From Coq Require Import Reals Lra Lia List Bool Permutation FunctionalExtensionality.
From Coquelicot Require Import Coquelicot.
From Verif Require Import Base Seg Piecewise PiecewiseSpec Integral IntegralFacts SegIntSpec SegIntFacts IndepSpec AtomFacts AtomFacts3 Indep Transform TransformSpec TransformFacts MixSpec MomSpec Mom MomFacts3 MomFacts4.
Import List ListNotations.
Open Scope R_scope.

Lemma discrete_has g l : discrete l -> has_expect g l.
Proof. intros D s S N. unfold discrete in D. rewrite Forall_forall in D. rewrite D in N by auto. discriminate. Qed.

Lemma expect_watom g l : discrete l -> expect g l = watom g l.
Proof.
  intros D. rewrite expect_contrib. unfold watom. apply sumR_ext. intros s S. unfold discrete in D. rewrite Forall_forall in D. specialize (D s S).
  destruct s; try discriminate; reflexivity.
Qed.

Lemma expect_pm g l : discrete l -> forall ps, NoDup ps -> (forall a, In a (dirac_pos l) -> In a ps) ->
  expect g l = sumR (map (fun z => g z * pm l z) ps).
Proof.
  intros D. induction D as [|s l Ds D IH]; intros ps N H.
  - rewrite (sumR_ext _ (fun _ => 0 * 1)) by (intros; unfold pm; simpl; ring). rewrite sumR_scal. unfold expect. simpl. ring.
  - destruct s as [| | | |a m|]; try discriminate. rewrite expect_contrib. cbn [map]. rewrite AtomFacts.sumR_cons. rewrite <- expect_contrib.
    rewrite (IH ps N) by (intros; apply H; simpl; auto).
    rewrite (sumR_ext (fun z => g z * pm (DiracSeg a m :: l) z) (fun z => (if Req_EM_T a z then g a * m else 0) + g z * pm l z)).
    + rewrite sumR_plus. f_equal. simpl. assert (Ha : In a ps) by (apply H; simpl; auto).
      clear - N Ha. induction ps as [|b ps IH]; [destruct Ha|]. inversion N; subst. simpl map. rewrite AtomFacts.sumR_cons.
      destruct Ha as [->|Ha].
      * destruct (Req_EM_T a a); [|congruence].
        rewrite (sumR_ext _ (fun _ => 0 * 1)).
        -- rewrite sumR_scal. ring.
        -- intros x Hx. destruct (Req_EM_T a x); [subst; contradiction|ring].
      * rewrite <- IH; auto. destruct (Req_EM_T a b); [subst; contradiction|ring].
    + intros z _. rewrite pm_cons. simpl. destruct (Req_EM_T a z); [subst; ring|ring].
Qed.

Lemma sum_pair_sum (w : R -> R -> R -> R) f g ps : sumR (map (fun z => pair_sum (w z) f g) ps) = pair_sum (fun x y => sumR (map (fun z => w z x y) ps)) f g.
Proof.
  induction ps as [|z ps IH].
  - simpl. rewrite (pair_sum_ext _ (fun _ _ => 0 * 1)) by (intros; ring). rewrite pair_sum_scal. ring.
  - cbn [map]. rewrite AtomFacts.sumR_cons, IH. rewrite <- pair_sum_plus. apply pair_sum_ext. intros. rewrite AtomFacts.sumR_cons. reflexivity.
Qed.

Lemma conv_expect eps op f g q h : 0 <= eps -> values_sep eps op f g -> convdiracs eps op f g = Ok q ->
  expect h (segs q) = pair_sum (fun x y => h (op x y)) f g /\ discrete (segs q).
Proof.
  intros He SV E. destruct (convdiracs_ok eps op f g He) as (q' & k & E' & O & D & _ & P & S).
  rewrite E in E'. injection E' as <-. destruct (S SV) as (K & B). split; auto.
  rewrite (expect_pm h (segs q) D (dirac_pos (segs q))); auto; [|apply ordered_discrete_nodup; auto].
  rewrite (sumR_ext _ (fun z => pair_sum (fun x y => h z * (if Req_EM_T (op x y) z then 1 else 0)) f g)).
  - rewrite sum_pair_sum. apply pair_sum_ext. intros x m y n X Y.
    assert (I0 : In (op x y) (dirac_pos (segs q))) by (apply B; exists x, m, y, n; auto).
    pose proof (ordered_discrete_nodup _ O D) as N. revert I0 N. clear. generalize (dirac_pos (segs q)). intros ps. induction ps as [|b ps IH]; intros Ha N; [destruct Ha|].
    inversion N; subst. cbn [map]. rewrite AtomFacts.sumR_cons. destruct (Req_EM_T (op x y) b) as [Eb|Nb].
    + subst b. rewrite (sumR_ext _ (fun _ => 0 * 1)); [rewrite sumR_scal; ring|].
      intros z Hz. destruct (Req_EM_T (op x y) z); [subst; contradiction|ring].
    + destruct Ha as [Ha|Ha]; [congruence|]. rewrite IH by auto. ring.
  - intros z _. rewrite P. rewrite pair_sum_scal. f_equal. apply pair_sum_ext. intros. rewrite K. reflexivity.
Qed.

(** means of laws: uniqueness and mixtures *)
Lemma law_mean_unique p m m' : law_mean p m -> law_mean p m' -> m = m'.
Proof. intros (_ & _ & ->) (_ & _ & ->). reflexivity. Qed.
Lemma law_mean_ext p p' m : (forall u v, Rbar_le u v -> p u v = p' u v) -> law_mean p m -> law_mean p' m.
Proof.
  intros E (A & B & ->). split; [|split].
  - apply (integrable_ext (fun x => p (Finite x) p_infty)); auto. intros. apply E. exact I.
  - apply (integrable_ext (fun x => p m_infty (Finite x))); auto. intros. apply E. exact I.
  - rewrite (Q_ext (fun x => p (Finite x) p_infty) (fun x => p' (Finite x) p_infty) 0 p_infty) by (try exact I; intros; apply E; exact I).
    rewrite (Q_ext (fun x => p m_infty (Finite x)) (fun x => p' m_infty (Finite x)) m_infty 0) by (try exact I; intros; apply E; exact I). reflexivity.
Qed.
Lemma law_mean_lin p p' c m m' : law_mean p m -> law_mean p' m' -> law_mean (fun u v => c * p u v + p' u v) (c * m + m').
Proof.
  intros (A & B & ->) (A' & B' & ->). split; [|split].
  - apply integrable_plus; auto. apply integrable_scal; auto.
  - apply integrable_plus; auto. apply integrable_scal; auto.
  - rewrite !Q_plus by (auto; apply integrable_scal; auto). rewrite !Q_scal by auto. ring.
Qed.
Lemma law_mean_zero : law_mean (fun _ _ => 0) 0.
Proof.
  assert (A : integrable (fun _ => 0) 0 p_infty) by (apply (prim_integrable _ _ _ (fun _ => 0)), prim_zero; [exact I|auto]).
  assert (B : integrable (fun _ => 0) m_infty 0) by (apply (prim_integrable _ _ _ (fun _ => 0)), prim_zero; [exact I|auto]).
  split; [|split]; auto. rewrite !Q_zero by (auto; exact I). ring.
Qed.
Lemma law_mean_mix ps : forall cs ms, length ps = length cs -> Forall2 (fun c m => law_mean (pprob c) m) cs ms ->
  law_mean (mixture_prob ps cs) (sumR (map (fun pm => fst pm * snd pm) (combine ps ms))).
Proof.
  induction ps as [|p ps IH]; intros [|c cs] ms L F; try discriminate; inversion F; subst.
  - exact law_mean_zero.
  - cbn [combine map fst snd]. rewrite AtomFacts.sumR_cons. cbn [fst snd].
    apply (law_mean_ext (fun u v => p * pprob c u v + mixture_prob ps cs u v)); [intros; reflexivity|].
    apply law_mean_lin; auto.
Qed.
