(** Main statements about discrete distributions. *)
From Coq Require Import Reals Lra List Bool Arith Sorted Permutation Lia.
From Coquelicot Require Import Coquelicot.
From Verif Require Import Base Bisect BisectFacts Seg Piecewise PiecewiseSpec PiecewiseFacts PiecewiseFacts2 PiecewiseFacts4 Integral IntegralFacts SegInt SegIntSpec SegIntFacts CumintFacts SegIntMain IntParts Indep IndepSpec AtomFacts AtomFacts2 AtomFacts3 Discr DiscrSpec DiscrFacts DiscrFacts2.
Import List ListNotations.
Open Scope R_scope.

Lemma disc_get xi pi d : disc_init xi pi = Ok d -> length xi = length pi /\
  let px := px_sort (combine xi pi) in d = Disc (map fst px) (map snd px) (cumsum (map snd px)).
Proof.
  intros E. assert (L : length xi = length pi).
  { unfold disc_init in E. destruct (Nat.eqb_spec (length xi) (length pi)); [auto|discriminate]. }
  split; auto. rewrite disc_init_ok in E; auto. injection E as <-. auto.
Qed.
Lemma sorted_values xi pi : length xi = length pi -> NoDup xi -> StronglySorted Rlt (map fst (px_sort (combine xi pi))).
Proof.
  intros L N. apply sorted_fst; [apply px_sort_sorted|].
  eapply Permutation_NoDup; [|exact N]. rewrite <- (map_fst_combine xi pi L) at 1. apply Permutation_map. symmetry. apply px_sort_perm.
Qed.
Lemma apart_perm eps l l' : Permutation l l' -> values_apart eps l -> values_apart eps l'.
Proof.
  intros P V.
  assert (F : forall l, values_apart eps l <-> ForallOrdPairs (fun a b => eps < Rabs (a - b)) l).
  { clear. induction l as [|x l IH]; split; intros H.
    - constructor.
    - intros i j a b Hi. destruct i; discriminate.
    - constructor.
      + apply Forall_forall. intros y Hy. apply In_nth_error in Hy. destruct Hy as (n & Hn). apply (H 0%nat (S n)); auto.
      + apply IH. intros i j a b Hi Hj N. apply (H (S i) (S j)); auto.
    - inversion H; subst. rewrite Forall_forall in H2. apply IH in H3.
      intros i j a b Hi Hj N. destruct i as [|i], j as [|j]; simpl in Hi, Hj; try congruence.
      + injection Hi as <-. apply H2. eapply nth_error_In; eauto.
      + injection Hj as <-. rewrite Rabs_minus_sym. apply H2. eapply nth_error_In; eauto.
      + apply (H3 i j); auto. }
  apply F. eapply FOP_perm; [|exact P|apply F; exact V]. intros a b. rewrite Rabs_minus_sym. auto.
Qed.

(** C28: a discrete distribution keeps exactly the given pairs, with the values in increasing order; the order in
    which they were given does not matter. *)
Lemma discrete_stored_main :
  (forall xi pi, length xi = length pi -> NoDup xi ->
   exists d, disc_init xi pi = Ok d /\ StronglySorted Rlt (d_xi d) /\ length (d_pi d) = length (d_xi d) /\
     Permutation (combine (d_xi d) (d_pi d)) (combine xi pi)) /\
  (forall xi pi xi' pi', length xi = length pi -> length xi' = length pi' ->
   Permutation (combine xi pi) (combine xi' pi') -> disc_init xi pi = disc_init xi' pi') /\
  (forall xi pi, length xi <> length pi -> disc_init xi pi = Err EAssert).
Proof.
  split; [|split].
  - intros xi pi L N. rewrite disc_init_ok; auto. eexists. split; [reflexivity|]. cbn [d_xi d_pi].
    split; [apply sorted_values; auto|]. split; [rewrite !map_length; auto|].
    rewrite combine_split_pair. apply px_sort_perm.
  - intros xi pi xi' pi' L L' P. rewrite !disc_init_ok by auto. rewrite (px_sort_eq _ _ P). auto.
  - intros xi pi H. unfold disc_init. destruct (Nat.eqb_spec (length xi) (length pi)); congruence.
Qed.

(** C28: its pdf is the given probability at each given value and 0 elsewhere; a value given more than once counts
    with all its probabilities. *)
Lemma discrete_pdf_main :
  forall xi pi d, disc_init xi pi = Ok d ->
  (forall x, disc_pdf d x = p_eq (combine xi pi) x) /\
  (forall x, ~ In x xi -> disc_pdf d x = 0) /\
  (NoDup xi -> forall x p, In (x, p) (combine xi pi) -> disc_pdf d x = p).
Proof.
  intros xi pi d E. destruct (disc_get _ _ _ E) as (L & ->). unfold disc_pdf. cbn [d_xi d_pi].
  assert (H : forall x, disc_pdf_loop (map fst (px_sort (combine xi pi))) (map snd (px_sort (combine xi pi))) x 0 = p_eq (combine xi pi) x).
  { intros x. rewrite disc_pdf_pairs. rewrite (p_eq_perm _ _ x (px_sort_perm _)). ring. }
  split; [exact H|]. split.
  - intros x N. rewrite H. apply p_eq_notin. rewrite map_fst_combine; auto.
  - intros N x p Hin. rewrite H. apply p_eq_in; auto. rewrite map_fst_combine; auto.
Qed.

(** C28: its piecewise density has exactly the given atoms, in increasing order, separated by zero pieces; the
    distribution function computed from it is the given P(X <= x). *)
Lemma discrete_density_main :
  forall eps xi pi d, 0 <= eps -> values_apart eps xi -> disc_init xi pi = Ok d ->
  exists q, disc_pw eps d = Ok q /\ ordered (segs q) /\ chained (segs q) /\
    getDiracs (segs q) = map (fun p => DiracSeg (fst p) (snd p)) (combine (d_xi d) (d_pi d)) /\
    (forall s, In s (getSegments (segs q)) -> forall x, sf s x = 0) /\
    (forall x, pm (segs q) x = p_eq (combine xi pi) x) /\ total_mass (segs q) = p_all (combine xi pi) /\
    (xi <> [] -> density (segs q) /\ exists c, cumint eps (segs q) = Ok c /\ forall x, call_scalar (segs c) x = Ok (p_le (combine xi pi) x)).
Proof.
  intros eps xi pi d He V E. destruct (disc_get _ _ _ E) as (L & ->). cbn [d_xi d_pi]. set (px := px_sort (combine xi pi)).
  assert (N : NoDup xi).
  { apply NoDup_nth_error. intros i j Hi Hij. destruct (Nat.eq_dec i j) as [|Nij]; auto. exfalso.
    apply nth_error_Some in Hi. destruct (nth_error xi i) as [a|] eqn:Ea; [|congruence].
    specialize (V i j a a Ea (eq_sym Hij) Nij). rewrite Rminus_diag_eq, Rabs_R0 in V; auto. lra. }
  assert (S : StronglySorted Rlt (map fst px)) by (apply sorted_values; auto).
  assert (P : Permutation (combine xi pi) px) by (symmetry; apply px_sort_perm).
  assert (V' : values_apart eps (map fst px)).
  { eapply apart_perm; [|exact V]. rewrite <- (map_fst_combine xi pi L) at 1. apply Permutation_map; auto. }
  destruct (disc_pw_ok eps px S V') as (q & Eq & Es). exists q. split; auto. rewrite Es.
  destruct (layout_wf px S) as (W & O & C & _).
  split; auto. split; auto. split; [rewrite combine_split_pair; apply layout_diracs|]. split; [|split; [|split]].
  - assert (Z : forall l s, In s (layout l) -> isSegment s = true -> forall x, sf s x = 0).
    { induction l as [|[a p] l IH]; [intros s []|]. destruct l as [|[b k] l].
      - intros s [<-|[]]; discriminate.
      - intros s [<-|[<-|Hs]]; [discriminate|reflexivity|]. apply IH; auto. }
    intros s Hs. apply filter_In in Hs. destruct Hs. eapply Z; eauto.
  - intros x. rewrite (p_eq_perm _ _ x P). apply layout_sums; auto.
  - rewrite (p_all_perm _ _ P). apply (layout_sums px 0); auto.
  - intros Nx. assert (Np : px <> []).
    { intros Z. rewrite Z in P. apply Permutation_sym, Permutation_nil in P. destruct xi, pi; try discriminate; congruence. }
    assert (D := layout_density px Np S). split; auto.
    destruct (cdf_exact_main eps (layout px) D) as (c & Ec & _ & _ & Vc). exists c. split; auto.
    intros x. rewrite (proj1 (Vc x)). f_equal. rewrite (p_le_perm _ _ x P). apply layout_sums; auto.
Qed.

(** C28: for a value given twice building the piecewise density fails (the zero piece between the two copies is
    empty), although pdf works. *)
Lemma discrete_repeated_refuted_main :
  forall eps x p k, 0 <= eps -> exists d, disc_init [x; x] [p; k] = Ok d /\ disc_pdf d x = p + k /\ disc_pw eps d = Err EAssert.
Proof.
  intros eps x p k He. eexists. split; [reflexivity|]. split.
  - assert (H := proj1 (discrete_pdf_main [x; x] [p; k] _ eq_refl) x). rewrite H. unfold p_eq. simpl.
    destruct (Req_EM_T x x); [ring|congruence].
  - assert (P : exists p0 k0, px_sort (combine [x; x] [p; k]) = [(x, p0); (x, k0)]).
    { unfold px_sort. simpl. destruct (px_lt (x, k) (x, p)); eauto. }
    destruct P as (p0 & k0 & P). unfold px_sort in P. simpl in P. cbn -[disc_pw]. rewrite P.
    unfold disc_pw. cbn [d_xi d_pi map fst snd disc_atoms disc_zeros addAll].
    unfold addSegment at 1. simpl merge_dirac. cbn -[rle req blt ble beq addAll].
    assert (E : rle (Rabs (x - x)) eps = true) by (apply rle_true; rewrite Rminus_diag_eq, Rabs_R0; auto).
    cbn. rewrite E. cbn -[blt ble].
    assert (A : blt (Finite x) (Finite x) = false) by (apply blt_false; simpl; lra).
    assert (B : ble (Finite x) (Finite x) = true) by (apply ble_true; simpl; lra).
    unfold add_new, bisect_left. cbn -[blt ble]. rewrite ?A, ?B. cbn -[blt ble]. rewrite ?A, ?B.
    assert (L : seg_lt (DiracSeg x (p0 + k0)) (ConstSeg x x 0) = false) by (unfold seg_lt; cbn [sa sb]; rewrite A, B; auto).
    rewrite L. cbn [nth_error]. unfold seg_gt. cbn [sa sb]. rewrite A, B. auto.
Qed.

(** C28: sampling.  For non-negative probabilities the number u of (0,1] gives the value x exactly if u lies
    between P(X < x) and P(X <= x), an interval of length P(X = x); a number above the sum of all probabilities (they
    need not add up to one exactly) raises IndexError, the correction of the index never acts. *)
Lemma discrete_sampling_main :
  forall xi pi d u, disc_init xi pi = Ok d -> NoDup xi -> Forall (fun p => 0 <= p) pi -> 0 < u ->
  (forall x, disc_rand d u = Ok x <-> In x xi /\ p_lt (combine xi pi) x < u <= p_le (combine xi pi) x) /\
  (forall x, p_le (combine xi pi) x - p_lt (combine xi pi) x = p_eq (combine xi pi) x) /\
  (u <= p_all (combine xi pi) -> exists x, disc_rand d u = Ok x) /\
  (p_all (combine xi pi) < u -> disc_rand d u = Err EIndex).
Proof.
  intros xi pi d u E N F U. destruct (disc_get _ _ _ E) as (L & ->). set (px := px_sort (combine xi pi)).
  assert (S : StronglySorted Rlt (map fst px)) by (apply sorted_values; auto).
  assert (P : Permutation (combine xi pi) px) by (symmetry; apply px_sort_perm).
  assert (Fp : Forall (fun p => 0 <= p) (map snd px)).
  { apply Forall_forall. intros p Hp. apply in_map_iff in Hp. destruct Hp as ([x k] & <- & Hin).
    apply (Permutation_in _ (Permutation_sym P)) in Hin. apply in_combine_r in Hin. rewrite Forall_forall in F; auto. }
  split; [|split; [|split]].
  - intros x. unfold px. rewrite rand_iff by auto. rewrite (p_lt_perm _ _ x P), (p_le_perm _ _ x P).
    assert (Q : Permutation (map fst px) xi) by (rewrite <- (map_fst_combine xi pi L); apply Permutation_map; symmetry; auto).
    fold px. split; intros (A & B); split; auto; [|symmetry in Q]; eapply Permutation_in; eauto.
  - intros x. unfold p_le, p_lt, p_eq. generalize (combine xi pi). clear. intros l. induction l as [|[a p] l IH]; simpl; [ring|].
    destruct (Rle_dec a x), (Rlt_dec a x), (Req_EM_T a x); simpl in *; lra.
  - intros H. rewrite (p_all_perm _ _ P) in H.
    destruct (find_cum px 0 u) as (l1 & x & p & l2 & Ep & A & B); try lra.
    exists x. fold px. rewrite Ep in *. apply rand_at; auto; lra.
  - intros H. rewrite (p_all_perm _ _ P) in H. apply rand_over; auto.
Qed.

(** C28: complementary distribution function: ccdf_value(x) is P(X > x). *)
Lemma ccdf_value_exact_main :
  forall eps l x, density l -> total_mass l = 1 -> ccdf_value eps l x = Ok (prob_above l x).
Proof. exact ccdf_ok. Qed.

(** C28: sign(X) takes the values -1, 0, 1 with the probabilities of X < 0, X = 0, X > 0. *)
Lemma sign_exact_main :
  forall eps l, 0 <= eps -> density l -> Forall nonneg_piece l -> dirac_sep eps l -> total_mass l = 1 ->
  exists d, sign_init eps l = Ok d /\
    disc_pdf d (-1) = prob_below l 0 /\ disc_pdf d 0 = pm l 0 /\ disc_pdf d 1 = prob_above l 0 /\
    (forall x, x <> -1 -> x <> 0 -> x <> 1 -> disc_pdf d x = 0) /\
    (pm l 0 = 0 <-> length (d_xi d) = 2%nat) /\ StronglySorted Rlt (d_xi d).
Proof.
  intros eps l He D NN Sep T. unfold sign_init. rewrite (ccdf_ok eps l 0 D T). simpl rbind.
  destruct (cdf_exact_main eps l D) as (q & -> & _ & _ & V). simpl rbind. rewrite (proj1 (V 0)). simpl rbind.
  rewrite (getDirac_pm l 0) by (eapply sep_nodup; eauto).
  assert (P0 : 0 <= pm l 0).
  { unfold pm. apply sumR_nonneg. intros v Hv. apply in_map_iff in Hv. destruct Hv as (s & <- & Hs).
    rewrite Forall_forall in NN. specialize (NN s Hs). destruct s; try lra. simpl in NN. destruct (Req_EM_T a 0); lra. }
  destruct (rltP 0 (pm l 0)) as [Lt|Nl].
  - assert (EI := disc_init_ok [-1; 0; 1] [cdf_spec l 0 - pm l 0; pm l 0; prob_above l 0] eq_refl).
    destruct (discrete_stored_main) as (ST & _). destruct (ST [-1; 0; 1] [cdf_spec l 0 - pm l 0; pm l 0; prob_above l 0] eq_refl) as (d & Ed & Sd & Ld & Pd).
    { repeat constructor; simpl; lra. }
    exists d. split; auto. destruct (discrete_pdf_main _ _ _ Ed) as (A & B & C).
    assert (N3 : NoDup [-1; 0; 1]) by (repeat constructor; simpl; lra).
    split; [apply C; auto; simpl; auto|]. split; [apply C; auto; simpl; auto|]. split; [apply C; auto; simpl; auto|].
    split; [intros x H1 H2 H3; apply B; simpl; intros [H|[H|[H|[]]]]; congruence|]. split; auto.
    apply Permutation_length in Pd. rewrite combine_length, Ld, Nat.min_id in Pd. simpl in Pd. rewrite Pd. split; intros; [lra|lia].
  - assert (Z : pm l 0 = 0) by lra. rewrite Z.
    destruct (discrete_stored_main) as (ST & _). destruct (ST [-1; 1] [cdf_spec l 0 - 0; prob_above l 0] eq_refl) as (d & Ed & Sd & Ld & Pd).
    { repeat constructor; simpl; lra. }
    exists d. split; auto. destruct (discrete_pdf_main _ _ _ Ed) as (A & B & C).
    assert (N3 : NoDup [-1; 1]) by (repeat constructor; simpl; lra).
    split; [unfold prob_below; rewrite Z; apply C; auto; simpl; auto|].
    split; [apply B; simpl; intros [H|[H|[]]]; lra|]. split; [apply C; auto; simpl; auto|].
    split; [intros x H1 H2 H3; apply B; simpl; intros [H|[H|[]]]; congruence|]. split; auto.
    apply Permutation_length in Pd. rewrite combine_length, Ld, Nat.min_id in Pd. simpl in Pd. rewrite Pd. tauto.
Qed.
