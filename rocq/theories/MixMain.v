(** Main lemmas: mixtures. *)
From Coq Require Import Reals Lra Lia List Bool Arith.
From Coquelicot Require Import Coquelicot.
From Verif Require Import Base Seg Piecewise PiecewiseSpec PiecewiseFacts4 Integral IntegralFacts SegInt SegIntSpec SegIntFacts
  Transform TransformSpec TransformFacts TransformFacts2 AtomFacts MixSpec Mix MixFacts.
Import List ListNotations.
Open Scope R_scope.

(** The density built by MixDistr gives every interval the weighted sum of the probabilities of the components. *)
Lemma mix_exact_main : forall eps ps cs, 0 <= eps -> length ps = length cs -> cs <> [] -> Forall (component eps) cs ->
  (forall c d, In c cs -> In d cs -> cross_sep eps c d) ->
  exists q, mix_pdf eps ps cs = Ok q /\ component eps (segs q) /\
    forall u v, Rbar_le u v -> pprob (segs q) u v = mixture_prob ps cs u v.
Proof. exact mix_ok. Qed.

(** Weights adding to one and components of mass one give a mixture of mass one. *)
Lemma mix_total_main : forall eps ps cs q, 0 <= eps -> length ps = length cs -> Forall (component eps) cs ->
  (forall c d, In c cs -> In d cs -> cross_sep eps c d) -> (forall c, In c cs -> pprob c m_infty p_infty = 1) -> sumR ps = 1 ->
  mix_pdf eps ps cs = Ok q -> pprob (segs q) m_infty p_infty = 1.
Proof.
  intros eps ps cs q He L F S T P E. destruct cs as [|c0 cs0] eqn:Ec.
  - destruct ps; [discriminate E|discriminate L].
  - rewrite <- Ec in *. destruct (mix_ok eps ps cs He L) as (q' & E' & _ & V); auto; [subst; discriminate|].
    rewrite E in E'. injection E' as <-. rewrite V by exact I. rewrite <- P. unfold mixture_prob. clear -T L. revert cs T L.
    induction ps as [|p ps IH]; intros [|c cs] T L; try discriminate; auto. simpl. rewrite IH; simpl in *; auto; try lia. rewrite T by auto. lra.
Qed.

(** Lists of different lengths and empty lists are refused. *)
Lemma mix_refused_main : forall eps ps cs, (length ps <> length cs -> mix_pdf eps ps cs = Err EAssert) /\ (cs = [] -> exists e, mix_pdf eps ps cs = Err e).
Proof.
  intros. unfold mix_pdf. split.
  - intros N. apply Nat.eqb_neq in N. rewrite N. auto.
  - intros ->. destruct ps; simpl; eauto.
Qed.

(** Position j of a sample holds the next unused value drawn from the component chosen at position j. *)
Lemma mix_sample_values_main : forall nmix idx draw, (forall k m, length (draw k m) = m) -> Forall (fun i => (i < nmix)%nat) idx ->
  length (mix_rand nmix idx draw) = length idx /\
  forall j, (j < length idx)%nat ->
    nth j (mix_rand nmix idx draw) 0 = nth (rank idx j) (draw (nth j idx O) (length (filter (Nat.eqb (nth j idx O)) idx))) 0 /\
    (rank idx j < length (filter (Nat.eqb (nth j idx O)) idx))%nat.
Proof.
  intros nmix idx draw DL B. unfold mix_rand. destruct (mix_rand_fold idx draw DL (seq 0 nmix) (map (fun _ => 0) idx)) as (L & V).
  - apply seq_NoDup.
  - rewrite map_length; auto.
  - split; auto. intros j J. split; [|apply rank_lt; auto]. apply V; auto. apply in_seq. rewrite Forall_forall in B. specialize (B (nth j idx O)). 
    assert (In (nth j idx O) idx) by (apply nth_In; auto). specialize (B H). lia.
Qed.

(** No value is used twice: two positions filled from the same component take different draws. *)
Lemma mix_sample_distinct_main : forall idx i j, (i < j < length idx)%nat -> nth i idx O = nth j idx O -> rank idx i <> rank idx j.
Proof.
  intros idx i j J E. unfold rank. rewrite E.
  assert (G : forall k i j idx, (i < j)%nat -> (j < length idx)%nat -> nth i idx O = k ->
     (length (filter (Nat.eqb k) (firstn i idx)) < length (filter (Nat.eqb k) (firstn j idx)))%nat).
  { clear. intros k. induction i; intros [|j] [|x l] I J E; simpl in *; try lia.
    - subst. rewrite Nat.eqb_refl. simpl. lia.
    - assert (length (filter (Nat.eqb k) (firstn i l)) < length (filter (Nat.eqb k) (firstn j l)))%nat by (apply IHi; auto; lia).
      destruct (Nat.eqb k x); simpl; lia. }
  specialize (G (nth j idx O) i j idx). lia.
Qed.

(** The component indices being uniform, every position follows the mixture with equal weights. *)
Lemma mix_sample_law_main : forall cs n j u v, cs <> [] -> (j < n)%nat ->
  uniform_mean (length cs) n (fun idx => pprob (nth (nth j idx O) cs []) u v) = mixture_prob (repeat (/ INR (length cs)) (length cs)) cs u v.
Proof.
  intros cs n j u v N J. rewrite (uniform_mean_nth (length cs) n j (fun k => pprob (nth k cs []) u v)); auto; [|destruct cs; simpl; [congruence|lia]].
  unfold mixture_prob, Rdiv. rewrite Rmult_comm. set (r := / INR (length cs)). clearbody r. clear.
  assert (G : forall (d : list (list segment)), sumR (map (fun k => pprob (nth k (d ++ cs) []) u v) (seq (length d) (length cs))) * r =
     sumR (map (fun pc => fst pc * pprob (snd pc) u v) (combine (repeat r (length cs)) cs))).
  { induction cs as [|c cs IH]; intros d; [simpl; lra|]. cbn [length repeat combine seq map]. rewrite !sumR_cons.
    rewrite <- (IH (d ++ [c])). rewrite app_nth2, Nat.sub_diag by lia. cbn [nth fst snd]. rewrite app_length. cbn [length].
    rewrite <- app_assoc. cbn [app]. rewrite Nat.add_1_r. ring. }
  rewrite Rmult_comm. apply (G []).
Qed.

(** With equal weights sampling follows the declared density. *)
Lemma mix_uniform_agrees_main : forall eps cs q n j u v, 0 <= eps -> Forall (component eps) cs ->
  (forall c d, In c cs -> In d cs -> cross_sep eps c d) -> (j < n)%nat -> Rbar_le u v ->
  mix_pdf eps (repeat (/ INR (length cs)) (length cs)) cs = Ok q ->
  uniform_mean (length cs) n (fun idx => pprob (nth (nth j idx O) cs []) u v) = pprob (segs q) u v.
Proof.
  intros eps cs q n j u v He F S J UV E. assert (N : cs <> []) by (intros ->; discriminate E).
  rewrite mix_sample_law_main by auto. destruct (mix_ok eps (repeat (/ INR (length cs)) (length cs)) cs He) as (q' & E' & _ & V); auto; [apply repeat_length|].
  rewrite E in E'. injection E' as <-. symmetry. apply V; auto.
Qed.

(** With other weights the two disagree exactly when the weighted sums of the component probabilities do. *)
Lemma mix_agreement_main : forall eps ps cs q n j u v, 0 <= eps -> length ps = length cs -> Forall (component eps) cs ->
  (forall c d, In c cs -> In d cs -> cross_sep eps c d) -> (j < n)%nat -> Rbar_le u v -> mix_pdf eps ps cs = Ok q ->
  (uniform_mean (length cs) n (fun idx => pprob (nth (nth j idx O) cs []) u v) = pprob (segs q) u v <->
   sumR (map (fun pc => (fst pc - / INR (length cs)) * pprob (snd pc) u v) (combine ps cs)) = 0).
Proof.
  intros eps ps cs q n j u v He L F S J UV E. assert (N : cs <> []) by (intros ->; destruct ps; [discriminate E|discriminate L]).
  rewrite mix_sample_law_main by auto. destruct (mix_ok eps ps cs He L N F S) as (q' & E' & _ & V).
  rewrite E in E'. injection E' as <-. rewrite V by auto. unfold mixture_prob. set (r := / INR (length cs)). clearbody r.
  assert (G : sumR (map (fun pc => (fst pc - r) * pprob (snd pc) u v) (combine ps cs)) =
     sumR (map (fun pc => fst pc * pprob (snd pc) u v) (combine ps cs)) - sumR (map (fun pc => fst pc * pprob (snd pc) u v) (combine (repeat r (length cs)) cs))).
  { clear -L. revert cs L. induction ps as [|p ps IH]; intros [|c cs] L; try discriminate; cbn [combine map length repeat]; [simpl; lra|].
    rewrite !sumR_cons, IH by (simpl in L; lia). cbn [fst snd]. ring. }
  rewrite G. split; lra.
Qed.

(** Weights 1/4, 3/4 on the atoms 0 and 1: the density puts 1/4 below 1/2, the sampler 1/2. *)
Lemma mix_sample_refuted_main : exists eps ps cs q u v, 0 <= eps /\ length ps = length cs /\ Forall (component eps) cs /\
  (forall c d, In c cs -> In d cs -> cross_sep eps c d) /\ sumR ps = 1 /\ (forall c, In c cs -> pprob c m_infty p_infty = 1) /\
  mix_pdf eps ps cs = Ok q /\ Rbar_le u v /\ uniform_mean (length cs) 1 (fun idx => pprob (nth (nth 0 idx O) cs []) u v) <> pprob (segs q) u v.
Proof.
  assert (C : forall x, component (1/8) [DiracSeg x 1]).
  { intros x. unfold component. splits.
    - repeat constructor.
    - repeat constructor.
    - repeat constructor.
    - constructor; auto. intros H; discriminate H. }
  assert (K : forall c d, In c [[DiracSeg 0 1]; [DiracSeg 1 1]] -> In d [[DiracSeg 0 1]; [DiracSeg 1 1]] -> cross_sep (1/8) c d).
  { intros c d Hc Hd a m b k Ha Hb. simpl in Hc, Hd. 
    destruct Hc as [<-|[<-|[]]], Hd as [<-|[<-|[]]]; simpl in Ha, Hb; destruct Ha as [Ha|[]], Hb as [Hb|[]]; injection Ha as <- _; injection Hb as <- _; auto;
    right; unfold Rabs; destruct (Rcase_abs _); lra. }
  destruct (mix_ok (1/8) [1/4; 3/4] [[DiracSeg 0 1]; [DiracSeg 1 1]]) as (q & E & _ & V); auto; try lra; try discriminate.
  exists (1/8), [1/4; 3/4], [[DiracSeg 0 1]; [DiracSeg 1 1]], q, m_infty, (Finite (1/2)). splits; auto; try lra; simpl; auto.
  - simpl; lra.
  - intros c [<-|[<-|[]]]; unfold pprob; simpl; destruct (Rbar_lt_dec _ _) as [|N]; try (exfalso; apply N; exact I); destruct (Rbar_lt_dec _ _) as [|N]; try (exfalso; apply N; exact I); lra.
  - pose proof (mix_sample_law_main [[DiracSeg 0 1]; [DiracSeg 1 1]] 1 0 m_infty (Finite (1/2)) ltac:(discriminate) ltac:(lia)) as L.
    cbn [length] in L. intros X. assert (Y := eq_trans (eq_sym L) X). rewrite V in Y by exact I. revert Y. clear.
    unfold mixture_prob, pprob. simpl.
    repeat (destruct (Rbar_lt_dec _ _) as [?|N]; simpl in *; try (exfalso; apply N; exact I); try lra).
Qed.

(** The reported range is the least one containing the ranges of the components. *)
Lemma mix_range_least_main : forall rs a b, mix_range rs = Ok (a, b) ->
  (forall r, In r rs -> Rbar_le a (fst r) /\ Rbar_le (snd r) b) /\ (exists r, In r rs /\ fst r = a) /\ (exists r, In r rs /\ snd r = b).
Proof.
  intros [|r0 rs] a b E; [discriminate|]. simpl in E. injection E as <- <-.
  assert (A : forall rs a0, let a := fold_left (fun a x => if blt (fst x) a then fst x else a) rs a0 in
     Rbar_le a a0 /\ (forall r : Rbar * Rbar, In r rs -> Rbar_le a (fst r)) /\ (a = a0 \/ exists r, In r rs /\ fst r = a)).
  { clear. induction rs as [|r rs IH]; intros a0 a; [subst a; simpl; splits; auto; [apply Rbar_le_refl|tauto]|].
    subst a. simpl. destruct (IH (if blt (fst r) a0 then fst r else a0)) as (H1 & H2 & H3). set (a := fold_left _ _ _) in *. clearbody a.
    destruct (bltP (fst r) a0) as [L|L].
    - splits.
      + eapply Rbar_le_trans; [exact H1|apply Rbar_lt_le; auto].
      + intros x [<-|I]; auto.
      + right. destruct H3 as [->|(x & I & X)]; [exists r|exists x]; auto.
    - apply Rbar_not_lt in L. splits; auto.
      + intros x [<-|I]; auto. eapply Rbar_le_trans; eauto.
      + destruct H3 as [->|(x & I & X)]; [left; auto|right; exists x; auto]. }
  assert (B : forall rs b0, let b := fold_left (fun b x => if blt b (snd x) then snd x else b) rs b0 in
     Rbar_le b0 b /\ (forall r : Rbar * Rbar, In r rs -> Rbar_le (snd r) b) /\ (b = b0 \/ exists r, In r rs /\ snd r = b)).
  { clear. induction rs as [|r rs IH]; intros b0 b; [subst b; simpl; splits; auto; [apply Rbar_le_refl|tauto]|].
    subst b. simpl. destruct (IH (if blt b0 (snd r) then snd r else b0)) as (H1 & H2 & H3). set (b := fold_left _ _ _) in *. clearbody b.
    destruct (bltP b0 (snd r)) as [L|L].
    - splits.
      + eapply Rbar_le_trans; [apply Rbar_lt_le; exact L|auto].
      + intros x [<-|I]; auto.
      + right. destruct H3 as [->|(x & I & X)]; [exists r|exists x]; auto.
    - apply Rbar_not_lt in L. splits; auto.
      + intros x [<-|I]; auto. eapply Rbar_le_trans; eauto.
      + destruct H3 as [->|(x & I & X)]; [left; auto|right; exists x; auto]. }
  destruct (A rs (fst r0)) as (A1 & A2 & A3). destruct (B rs (snd r0)) as (B1 & B2 & B3).
  set (a := fold_left _ _ (fst r0)) in *. set (b := fold_left _ _ (snd r0)) in *. clearbody a b. splits.
  - intros r [<-|I]; auto.
  - destruct A3 as [->|(x & I & X)]; [exists r0|exists x]; simpl; auto.
  - destruct B3 as [->|(x & I & X)]; [exists r0|exists x]; simpl; auto.
Qed.
