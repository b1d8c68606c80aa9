(** Proofs about the L2 distance and the Kullback-Leibler distance. *)
From Coq Require Import Reals Lra Lia List Bool Sorted Permutation.
From Coquelicot Require Import Coquelicot.
From Verif Require Import Base Bisect Seg Piecewise PiecewiseSpec PiecewiseFacts PiecewiseFacts2 PiecewiseFacts3 PiecewiseFacts4 Integral IntegralFacts SegInt SegIntSpec SegIntFacts SegIntMain CumintFacts IndepSpec AtomFacts AtomFacts2 AtomFacts3 ExtrFacts2 TransformSpec TransformFacts TransformFacts2 OperationFacts CondFacts ConvolFacts IndepAsm CondFacts2 Info InfoSpec InfoFacts InfoFacts2.
Import List ListNotations.
Open Scope R_scope.

Lemma dens_nonneg l x : Forall nonneg_piece l -> 0 <= dens l x.
Proof.
  intros NN. rewrite dens_sum. induction NN as [|s k H N IH]; [simpl; lra|]. cbn [map]. rewrite sumR_cons. apply Rplus_le_le_0_compat; auto.
  unfold dens1. destruct (isDirac s) eqn:D; [lra|]. destruct (Rbar_lt_dec (sa s) x) as [A|A]; [|lra]. destruct (Rbar_lt_dec x (sb s)) as [B|B]; [|lra].
  destruct s; try discriminate; auto.
Qed.

Lemma atoms_sub ls ls' A : atoms_of ls A -> (forall l m x, In l ls' -> In (DiracSeg x m) l -> exists l0 m0, In l0 ls /\ In (DiracSeg x m0) l0) ->
  (forall l m x, In l ls -> In (DiracSeg x m) l -> exists l0 m0, In l0 ls' /\ In (DiracSeg x m0) l0) -> atoms_of ls' A.
Proof.
  intros (NA & EA) H1 H2. split; auto. intros x. rewrite EA. split; intros (l & m & K1 & K2); eauto.
Qed.

(** ** L2 distance *)
Lemma L2_cut eps f g P A : 0 <= eps -> good eps f -> good eps g -> cross_sep eps f g -> ends_of [f; g] P -> atoms_of [f; g] A ->
  L2_distance eps f g = Ok (sqrt (cut_int (fun x => (dens f x - dens g x) ^ 2) P + sumR (map (fun x => (pm f x - pm g x) ^ 2) A))).
Proof.
  intros He Gf Gg C (SP & EP) (NA & EA).
  destruct (op_all eps Rminus f g He Gf Gg C) as (d & D1 & D2 & D3 & D4 & D5 & _); [ring|].
  pose proof (sep_nodup eps _ He (proj2 (proj2 Gf))) as Nf. pose proof (sep_nodup eps _ He (proj2 (proj2 Gg))) as Ng. pose proof (sep_nodup eps _ He (proj2 (proj2 D2))) as Nd.
  destruct (op_all eps Rmult (segs d) (segs d) He D2 D2) as (h & H1 & _ & _ & _ & _ & H2); [apply cross_same; eauto|ring|].
  unfold L2_distance. rewrite D1. cbn [rbind]. rewrite H1. cbn [rmap rbind]. f_equal. f_equal.
  rewrite (H2 P A).
  - f_equal.
    + apply cut_int_ext; auto. intros x Nx. rewrite D4; [ring| |]; intros K; apply Nx, EP; [exists f|exists g]; simpl; auto.
    + f_equal. apply map_ext. intros x. rewrite D5, !pm_mass_at by auto. destruct (mass_at f x), (mass_at g x); cbn [comb ov]; ring.
  - split; auto. intros y. rewrite EP. split.
    + intros (l & [<-|[<-|[]]] & K); exists (segs d); split; simpl; auto; apply is_end_breaks, D3; rewrite <- !is_end_breaks; auto.
    + intros (l & [<-|[<-|[]]] & K); apply is_end_breaks, D3 in K; rewrite <- !is_end_breaks in K; (destruct K; [exists f|exists g]; simpl; auto).
  - apply (atoms_sub [f; g]); [split; auto| |].
    + intros l m x Hl Hx. assert (l = segs d) as -> by (destruct Hl as [<-|[<-|[]]]; auto). apply mass_at_iff in Hx; auto. rewrite D5 in Hx.
      destruct (mass_at f x) as [mf|] eqn:E1; [apply mass_at_iff in E1; auto; exists f, mf; simpl; auto|].
      destruct (mass_at g x) as [mg|] eqn:E2; [apply mass_at_iff in E2; auto; exists g, mg; simpl; auto|discriminate].
    + intros l m x Hl Hx. exists (segs d).
      assert (exists m', mass_at (segs d) x = Some m') as (m' & K).
      { rewrite D5. destruct Hl as [<-|[<-|[]]]; apply mass_at_iff in Hx; auto; rewrite Hx; simpl; [destruct (mass_at g x); eauto|destruct (mass_at f x); simpl; eauto]. }
      exists m'. apply mass_at_iff in K; auto. simpl; auto.
Qed.

(** ** Kullback-Leibler distance *)
Definition log_at (big : R) (l : list segment) (x : R) : R := if covb l x then np_log big (dens l x) else 0.

Lemma KL_raw eps big f g P A : 0 <= eps -> good eps f -> good eps g -> cross_sep eps f g -> pos_atoms f -> pos_atoms g ->
  ends_of [f; g] P -> atoms_of [f; g] A ->
  KL_distance eps big f g = Ok (cut_int (fun x => dens f x * (log_at big f x - log_at big g x)) P +
    sumR (map (fun x => ov (fun m => m) (comb Rmult (mass_at f x) (comb Rminus (option_map ln (mass_at f x)) (option_map ln (mass_at g x))))) A)).
Proof.
  intros He Gf Gg CS PAf PAg (SP & EP) (NA & EA).
  destruct (function_ok eps (np_log big) atom_log ln f He Gf) as (lf & F1 & F2 & F3 & F4 & F5).
  { intros a m H. apply atom_log_pos. eapply PAf; eauto. }
  destruct (function_ok eps (np_log big) atom_log ln g He Gg) as (lg & L1 & L2 & L3 & L4 & L5).
  { intros a m H. apply atom_log_pos. eapply PAg; eauto. }
  pose proof (sep_nodup eps _ He (proj2 (proj2 Gf))) as Nf. pose proof (sep_nodup eps _ He (proj2 (proj2 Gg))) as Ng.
  pose proof (sep_nodup eps _ He (proj2 (proj2 F2))) as Nlf. pose proof (sep_nodup eps _ He (proj2 (proj2 L2))) as Nlg.
  assert (Af : forall a k, In (DiracSeg a k) (segs lf) -> exists m, In (DiracSeg a m) f).
  { intros a k Hk. apply mass_at_iff in Hk; auto. rewrite F5 in Hk. destruct (mass_at f a) as [m|] eqn:E; [|discriminate]. exists m. apply mass_at_iff; auto. }
  assert (Ag : forall a k, In (DiracSeg a k) (segs lg) -> exists m, In (DiracSeg a m) g).
  { intros a k Hk. apply mass_at_iff in Hk; auto. rewrite L5 in Hk. destruct (mass_at g a) as [m|] eqn:E; [|discriminate]. exists m. apply mass_at_iff; auto. }
  destruct (op_all eps Rminus (segs lf) (segs lg) He F2 L2) as (d & D1 & D2 & D3 & D4 & D5 & _).
  { intros a m b k Ha Hb. destruct (Af _ _ Ha) as (m' & Ha'). destruct (Ag _ _ Hb) as (k' & Hb'). exact (CS _ _ _ _ Ha' Hb'). }
  { ring. }
  pose proof (sep_nodup eps _ He (proj2 (proj2 D2))) as Nd.
  assert (Ad : forall a k, In (DiracSeg a k) (segs d) -> (exists m, In (DiracSeg a m) f) \/ exists m, In (DiracSeg a m) g).
  { intros a k Hk. apply mass_at_iff in Hk; auto. rewrite D5 in Hk. destruct (mass_at (segs lf) a) as [k'|] eqn:E; [apply mass_at_iff in E; eauto|].
    cbn [comb] in Hk. apply mass_at_iff in Hk; auto. apply Ag in Hk. auto. }
  destruct (op_all eps Rmult f (segs d) He Gf D2) as (h & H1 & _ & _ & _ & _ & H2).
  { intros a m b k Ha Hb. destruct (Ad _ _ Hb) as [(m' & Hb')|(k' & Hb')].
    - apply (cross_same eps f f He Gf (fun a k H => ex_intro _ k H) _ _ _ _ Ha Hb').
    - exact (CS _ _ _ _ Ha Hb'). }
  { ring. }
  unfold KL_distance, pw_log. rewrite F1. cbn [rbind]. rewrite L1. cbn [rbind]. rewrite D1. cbn [rbind]. rewrite H1. cbn [rmap rbind]. f_equal.
  rewrite (H2 P A).
  - f_equal.
    + apply cut_int_ext; auto. intros x Nx.
      assert (Xf : ~ is_end f x) by (intros K; apply Nx, EP; exists f; simpl; auto).
      assert (Xg : ~ is_end g x) by (intros K; apply Nx, EP; exists g; simpl; auto).
      rewrite D4; [|rewrite is_end_breaks, F3, <- is_end_breaks; auto|rewrite is_end_breaks, L3, <- is_end_breaks; auto].
      rewrite F4, L4 by auto. reflexivity.
    + f_equal. apply map_ext_in. intros x Hx. rewrite D5, F5, L5. reflexivity.
  - split; auto. intros y. rewrite EP. split.
    + intros (l & [<-|[<-|[]]] & K); [exists f; simpl; auto|]. exists (segs d); split; simpl; auto. apply is_end_breaks, D3. right. apply L3, is_end_breaks. auto.
    + intros (l & [<-|[<-|[]]] & K); [exists f; simpl; auto|]. apply is_end_breaks, D3 in K. destruct K as [K|K]; [apply F3 in K; exists f|apply L3 in K; exists g]; apply is_end_breaks in K; simpl; auto.
  - apply (atoms_sub [f; g]); [split; auto| |].
    + intros l m x [<-|[<-|[]]] Hx; [exists f, m; simpl; auto|]. destruct (Ad _ _ Hx) as [(m' & K)|(m' & K)]; [exists f, m'|exists g, m']; simpl; auto.
    + intros l m x [<-|[<-|[]]] Hx; [exists f, m; simpl; auto|].
      assert (K : exists k, mass_at (segs d) x = Some k).
      { rewrite D5, L5. apply mass_at_iff in Hx; auto. rewrite Hx. destruct (mass_at (segs lf) x); simpl; eauto. }
      destruct K as (k & K). apply mass_at_iff in K; auto. exists (segs d), k. simpl; auto.
Qed.

Lemma KL_cut eps big f g P A : 0 <= eps -> good eps f -> good eps g -> Forall nonneg_piece f -> pos_atoms f -> pos_atoms g -> dominated f g ->
  ends_of [f; g] P -> atoms_of [f] A ->
  KL_distance eps big f g = Ok (cut_int (fun x => rel (dens f x) (dens g x)) P + sumR (map (fun x => rel (pm f x) (pm g x)) A)).
Proof.
  intros He Gf Gg NNf PAf PAg (DD & DA) EP0 EA0. pose proof EP0 as (SP & EP). pose proof EA0 as (NA & EA).
  pose proof (sep_nodup eps _ He (proj2 (proj2 Gf))) as Nf. pose proof (sep_nodup eps _ He (proj2 (proj2 Gg))) as Ng.
  rewrite (KL_raw eps big f g P A); auto.
  - f_equal. f_equal.
    + apply cut_int_ext; auto. intros x Nx.
      assert (Xf : ~ is_end f x) by (intros K; apply Nx, EP; exists f; simpl; auto).
      assert (Xg : ~ is_end g x) by (intros K; apply Nx, EP; exists g; simpl; auto).
      pose proof (dens_nonneg f x NNf) as NN. unfold rel.
      destruct (Rlt_dec 0 (dens f x)) as [K|K]; [|replace (dens f x) with 0 by lra; ring].
      pose proof (DD x Xf Xg K) as K'. unfold log_at. rewrite !covb_dens by lra. unfold np_log.
      destruct (rltP 0 (dens f x)); [|lra]. destruct (rltP 0 (dens g x)); [|lra]. rewrite ln_div by auto. ring.
    + f_equal. apply map_ext_in. intros x Hx. rewrite !pm_mass_at by auto. apply EA in Hx. destruct Hx as (l0 & m & [<-|[]] & Hx).
      destruct (proj1 (DA x)) as (k & Hk); [eauto|]. pose proof (PAf x m Hx). pose proof (PAg x k Hk).
      apply mass_at_iff in Hx; auto. apply mass_at_iff in Hk; auto. rewrite Hx, Hk. cbn [option_map comb ov].
      unfold rel. destruct (Rlt_dec 0 m); [|lra]. rewrite ln_div by auto. ring.
  - apply cross_same; auto. intros a k Hk. apply DA. eauto.
  - apply (atoms_sub [f]); auto.
    + intros l m x [<-|[<-|[]]] Hx; [exists f, m; simpl; auto|]. destruct (proj2 (DA x)) as (m' & K); [eauto|]. exists f, m'; simpl; auto.
    + intros l m x [<-|[]] Hx. exists f, m; simpl; auto.
Qed.

(** ** Gibbs' inequality *)
Lemma rel_lower p q : 0 <= p -> 0 <= q -> (0 < p -> 0 < q) -> p - q <= rel p q.
Proof.
  intros P Q H. unfold rel. destruct (Rlt_dec 0 p) as [K|K]; [|lra]. specialize (H K).
  assert (E : ln (q / p) <= q / p - 1).
  { assert (0 < q / p) by (apply Rdiv_lt_0_compat; auto). pose proof (exp_ineq1_le (ln (q / p))) as X. rewrite exp_ln in X by auto. lra. }
  replace (p / q) with (/ (q / p)) by (field; lra). rewrite ln_Rinv by (apply Rdiv_lt_0_compat; auto).
  assert (p * ln (q / p) <= p * (q / p - 1)) by (apply Rmult_le_compat_l; lra).
  replace (p * (q / p - 1)) with (q - p) in H0 by (field; lra). lra.
Qed.
Lemma rel_same p : rel p p = 0.
Proof. unfold rel. destruct (Rlt_dec 0 p); auto. replace (p / p) with 1 by (field; lra). rewrite ln_1. ring. Qed.

Lemma cut_int_le F G P : StronglySorted Rbar_lt P -> cut_integrable F P -> cut_integrable G P ->
  (forall x : R, ~ In (Finite x) P -> F x <= G x) -> cut_int F P <= cut_int G P.
Proof.
  intros S IF IG H. rewrite cut_integrable_pairs in IF, IG. rewrite !cut_int_pairs by auto.
  assert (K : forall a b, In (a, b) (pairs_up P) -> Q F a b <= Q G a b).
  { intros a b Hab. pose proof (IF a b Hab) as I1. pose proof (IG a b Hab) as I2. apply pairs_up_In in Hab; auto. destruct Hab as (_ & _ & L & N).
    assert (I3 : integrable (fun x => G x + -1 * F x) a b) by (apply integrable_plus; auto; apply integrable_scal; auto).
    pose proof (Q_nonneg _ _ _ I3) as X. rewrite Q_plus in X; auto; [|apply integrable_scal; auto]. rewrite Q_scal in X by auto.
    assert (0 <= Q G a b + -1 * Q F a b); [|lra]. apply X. intros x (X1 & X2).
    assert (F x <= G x); [apply H; intros K; apply (N _ K); auto|lra]. }
  clear - K. induction (pairs_up P) as [|[a b] L IH]; [simpl; lra|]. cbn [map]. rewrite !sumR_cons. cbn [fst snd].
  apply Rplus_le_compat; [apply K; left; auto|apply IH; intros; apply K; right; auto].
Qed.

Lemma cut_int_minus F G P : StronglySorted Rbar_lt P -> cut_integrable F P -> cut_integrable G P ->
  cut_integrable (fun x => F x - G x) P /\ cut_int (fun x => F x - G x) P = cut_int F P - cut_int G P.
Proof.
  intros S IF IG. rewrite cut_integrable_pairs in *. rewrite !cut_int_pairs by auto.
  assert (K : forall a b, In (a, b) (pairs_up P) -> integrable (fun x => F x - G x) a b /\ Q (fun x => F x - G x) a b = Q F a b - Q G a b).
  { intros a b Hab. pose proof (IF a b Hab) as I1. pose proof (IG a b Hab) as I2. apply pairs_up_In in Hab; auto. destruct Hab as (_ & _ & L & N).
    assert (I3 : integrable (fun x => F x + -1 * G x) a b) by (apply integrable_plus; auto; apply integrable_scal; auto).
    split; [eapply integrable_ext; [|exact I3]; intros; simpl; ring|].
    rewrite (Q_ext _ (fun x => F x + -1 * G x)); auto; [|intros; ring]. rewrite Q_plus, Q_scal; auto; [ring|apply integrable_scal; auto]. }
  split; [intros; apply K; auto|]. clear - K. induction (pairs_up P) as [|[a b] L IH]; [simpl; lra|]. cbn [map]. rewrite !sumR_cons. cbn [fst snd].
  rewrite IH by (intros; apply K; right; auto). destruct (K a b (or_introl eq_refl)) as (_ & ->). ring.
Qed.

(** the mass of the continuous part, cut at more points than its own ends *)
Lemma cont_mass_cut f P : ordered f -> Forall wf_seg f -> Forall integrable_piece f -> StronglySorted Rbar_lt P ->
  (forall y, is_end f y -> In y P) -> cut_integrable (dens f) P /\ cut_int (dens f) P = sumR (map mass (getSegments f)).
Proof.
  intros O W HI SP EP. pose proof (has_int_all f HI) as HH.
  destruct (split_all_ordered P f SP O W) as (O' & W' & _).
  destruct (split_all_prob P f m_infty p_infty SP W HH) as (E & HS); [simpl; auto|].
  assert (PP : forall s, In s (split_all P f) -> isDirac s = false -> In (sa s, sb s) (pairs_up P)).
  { intros s Hs D. apply pairs_up_In; auto.
    assert (EB : forall y, In y (getBreaks (split_all P f)) -> In y P).
    { intros y Hy. apply split_breaks_In in Hy; auto. destruct Hy as [Hy|[Hy _]]; auto. apply EP, is_end_breaks. auto. }
    splits.
    - apply EB, getBreaks_In. exists s; auto.
    - apply EB, getBreaks_In. exists s; auto.
    - rewrite Forall_forall in W'. pose proof (W' s Hs). destruct s; auto; discriminate.
    - intros y Hy (Y1 & Y2). apply split_all_In in Hs. destruct Hs as (t & Ht & Hs). rewrite Forall_forall in W.
      destruct (split_seg_spec P t SP (W t Ht)) as (_ & _ & _ & _ & _ & K & _).
      apply (K s y Hs Hy). split; auto. }
  assert (DE : forall x : R, ~ In (Finite x) P -> dens (split_all P f) x = dens f x).
  { intros x Nx. apply split_dens; auto. }
  pose proof (cont_cut P (split_all P f) SP O' W' PP) as K.
  split.
  - apply (cut_integrable_ext (dens (split_all P f))); auto. apply cut_integrable_pairs. intros a b Hab.
    pose proof Hab as Hab'. apply pairs_up_In in Hab'; auto. destruct Hab' as (Pa & Pb & L & N).
    destruct (findSegmentByEnds (split_all P f) a b) as [s|] eqn:Ef.
    + destruct (find_ok _ a b s W' HS L Ef) as (E1 & E2 & E3 & E4 & E5). pose proof (E5 E3) as I1. rewrite E1, E2 in I1.
      apply findSegmentByEnds_Some in Ef. destruct Ef as (Ef & _).
      eapply integrable_ext; [|exact I1]. intros x (X1 & X2). symmetry. apply dens_at; auto; congruence.
    + assert (Z : forall x : R, RbarIn a b x -> dens (split_all P f) x = 0).
      { intros x (X1 & X2). destruct (Req_EM_T (dens (split_all P f) x) 0) as [|NZ]; auto. exfalso.
        apply covb_dens in NZ. apply existsb_exists in NZ. destruct NZ as (s & Hs & C). destruct (isDirac s) eqn:D; [discriminate|].
        destruct (Rbar_lt_dec (sa s) x) as [S1|]; [|discriminate]. destruct (Rbar_lt_dec x (sb s)) as [S2|]; [|discriminate].
        pose proof (PP s Hs D) as Ps. apply pairs_up_In in Ps; auto. destruct Ps as (Sa & Sb & L' & N').
        apply (findSegmentByEnds_None _ _ _ s Ef Hs).
        assert (Z1 : Rbar_lt (sa s) b) by (exact (Rbar_lt_trans _ x _ S1 X2)). assert (Z2 : Rbar_lt a (sb s)) by (exact (Rbar_lt_trans _ x _ X1 S2)).
        split; apply Rbar_le_antisym.
        - destruct (Rbar_le_lt_dec (sa s) a) as [T|T]; auto. exfalso. apply (N _ Sa). auto.
        - destruct (Rbar_le_lt_dec a (sa s)) as [T|T]; auto. exfalso. apply (N' _ Pa). auto.
        - destruct (Rbar_le_lt_dec (sb s) b) as [T|T]; auto. exfalso. apply (N' _ Pb). auto.
        - destruct (Rbar_le_lt_dec b (sb s)) as [T|T]; auto. exfalso. apply (N _ Sb). auto. }
      eapply (integrable_ext (fun _ => 0)); [intros; symmetry; auto|]. apply (prim_integrable _ _ _ (fun _ => 0)). apply prim_zero; auto.
  - rewrite <- (cut_int_ext (dens (split_all P f))); auto. rewrite <- K.
    assert (Wc : forall l, Forall wf_seg l -> Forall wf_seg (getSegments l)).
    { intros l Wl. apply Forall_forall. intros s Hs. apply getSegments_cont in Hs. rewrite Forall_forall in Wl. apply Wl; tauto. }
    change (sumR (map mass (getSegments (split_all P f)))) with (total_mass (getSegments (split_all P f))).
    change (sumR (map mass (getSegments f))) with (total_mass (getSegments f)).
    rewrite !total_mass_pprob by (apply Wc; auto). rewrite getSegments_split by auto.
    apply split_all_prob; auto; [|simpl; auto]. apply Forall_forall. intros s Hs. apply getSegments_cont in Hs. rewrite Forall_forall in HH. apply HH; tauto.
Qed.

Lemma gibbs eps big f g P : 0 <= eps -> good eps f -> good eps g -> prob_density f -> prob_density g -> dominated f g ->
  ends_of [f; g] P -> cut_integrable (fun x => rel (dens f x) (dens g x)) P -> exists d, KL_distance eps big f g = Ok d /\ 0 <= d.
Proof.
  intros He Gf Gg (If & Nf & Af & Tf) (Ig & Ng & Ag & Tg) D EP CI. destruct (atoms_exist [f]) as (A & EA).
  rewrite (KL_cut eps big f g P A); auto. eexists; split; [reflexivity|].
  pose proof EP as (SP & EP'). pose proof EA as (NA & EA'). destruct D as (D1 & D2).
  destruct Gf as (Of & Wf & Sf). destruct Gg as (Og & Wg & Sg).
  pose proof (sep_nodup eps _ He Sf) as Uf. pose proof (sep_nodup eps _ He Sg) as Ug.
  destruct (cont_mass_cut f P Of Wf If SP) as (C1 & C2); [intros y Hy; apply EP'; exists f; simpl; auto|].
  destruct (cont_mass_cut g P Og Wg Ig SP) as (C3 & C4); [intros y Hy; apply EP'; exists g; simpl; auto|].
  destruct (cut_int_minus _ _ P SP C1 C3) as (C5 & C6).
  assert (B1 : cut_int (dens f) P - cut_int (dens g) P <= cut_int (fun x => rel (dens f x) (dens g x)) P).
  { rewrite <- C6. apply cut_int_le; auto. intros x Nx. apply rel_lower; auto using dens_nonneg.
    intros K. apply D1; auto; intros E; apply Nx, EP'; [exists f|exists g]; simpl; auto. }
  assert (B2 : sumR (map (pm f) A) - sumR (map (pm g) A) <= sumR (map (fun x => rel (pm f x) (pm g x)) A)).
  { assert (Q : forall x, In x A -> pm f x - pm g x <= rel (pm f x) (pm g x)).
    { intros x Hx. apply EA' in Hx. destruct Hx as (l & m & [<-|[]] & Hx). destruct (proj1 (D2 x)) as (k & Hk); [eauto|].
      pose proof (Af x m Hx). pose proof (Ag x k Hk). rewrite (pm_In f x m), (pm_In g x k) by auto. apply rel_lower; lra. }
    clear - Q. induction A as [|x A IH]; [simpl; lra|]. cbn [map]. rewrite !sumR_cons.
    pose proof (Q x (or_introl eq_refl)). assert (K : forall y, In y A -> pm f y - pm g y <= rel (pm f y) (pm g y)) by (intros; apply Q; right; auto). specialize (IH K). lra. }
  assert (AF : incl (dirac_pos f) A). { intros x Hx. apply dirac_pos_In in Hx. destruct Hx as (m & Hx). apply EA'. exists f, m; simpl; auto. }
  assert (AG : incl (dirac_pos g) A). { intros x Hx. apply dirac_pos_In in Hx. destruct (proj2 (D2 x) Hx) as (m & Hx'). apply EA'. exists f, m; simpl; auto. }
  unfold total_mass in Tf, Tg. rewrite mass_partition, (atoms_sum f A) in Tf by auto. rewrite mass_partition, (atoms_sum g A) in Tg by auto. lra.
Qed.

Lemma KL_same eps big f : 0 <= eps -> good eps f -> Forall nonneg_piece f -> pos_atoms f -> KL_distance eps big f f = Ok 0.
Proof.
  intros He G NN PA. destruct (ends_exist [f; f]) as (P & EP). destruct (atoms_exist [f]) as (A & EA).
  rewrite (KL_cut eps big f f P A); auto; [|split; auto; intros; split; auto]. f_equal. pose proof EP as (SP & _).
  rewrite cut_int_pairs by auto. 
  assert (Z : forall a b, In (a, b) (pairs_up P) -> Q (fun x => rel (dens f x) (dens f x)) a b = 0).
  { intros a b H. apply pairs_up_In in H; auto. destruct H as (_ & _ & L & _). apply Q_zero; auto. intros x _. apply rel_same. }
  assert (Z1 : sumR (map (fun ab => Q (fun x => rel (dens f x) (dens f x)) (fst ab) (snd ab)) (pairs_up P)) = 0).
  { apply sumR_zero. intros v Hv. apply in_map_iff in Hv. destruct Hv as ([a b] & <- & H). apply Z; auto. }
  rewrite Z1. replace (sumR (map (fun x => rel (pm f x) (pm f x)) A)) with 0; [ring|]. symmetry. apply sumR_zero. intros v Hv.
  apply in_map_iff in Hv. destruct Hv as (x & <- & _). apply rel_same.
Qed.

(** ** symmetry of the L2 distance *)
Lemma L2_sym eps f g : 0 <= eps -> good eps f -> good eps g -> cross_sep eps f g -> L2_distance eps f g = L2_distance eps g f.
Proof.
  intros He Gf Gg C. destruct (ends_exist [f; g]) as (P & EP). destruct (atoms_exist [f; g]) as (A & EA).
  assert (EP2 : ends_of [g; f] P). { split; [apply EP|]. intros y. rewrite (proj2 EP). split; intros (l & H & K); exists l; split; auto; simpl in *; tauto. }
  assert (EA2 : atoms_of [g; f] A). { split; [apply EA|]. intros y. rewrite (proj2 EA). split; intros (l & m & H & K); exists l, m; split; auto; simpl in *; tauto. }
  rewrite (L2_cut eps f g P A), (L2_cut eps g f P A); auto.
  - f_equal. f_equal. f_equal; [apply cut_int_ext; [apply EP|intros; ring]|f_equal; apply map_ext; intros; ring].
  - intros a m b k Ha Hb. destruct (C b k a m Hb Ha) as [|K]; auto. right. rewrite Rabs_minus_sym. auto.
Qed.
Lemma L2_same eps f : 0 <= eps -> good eps f -> L2_distance eps f f = Ok 0.
Proof.
  intros He G. destruct (ends_exist [f; f]) as (P & EP). destruct (atoms_exist [f; f]) as (A & EA).
  rewrite (L2_cut eps f f P A); auto; [|apply cross_same; eauto]. f_equal. rewrite <- sqrt_0. f_equal. pose proof EP as (SP & _).
  rewrite cut_int_pairs by auto.
  assert (Z1 : sumR (map (fun ab => Q (fun x => (dens f x - dens f x) ^ 2) (fst ab) (snd ab)) (pairs_up P)) = 0).
  { apply sumR_zero. intros v Hv. apply in_map_iff in Hv. destruct Hv as ([a b] & <- & H). apply pairs_up_In in H; auto. destruct H as (_ & _ & L & _). apply Q_zero; auto. intros x _. ring. }
  rewrite Z1. replace (sumR (map (fun x => (pm f x - pm f x) ^ 2) A)) with 0; [ring|]. symmetry. apply sumR_zero. intros v Hv.
  apply in_map_iff in Hv. destruct Hv as (x & <- & _). ring.
Qed.
