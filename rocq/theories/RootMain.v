(** Main lemmas: root finding (C50). *)
From Coq Require Import Reals ZArith Lra Lia List Bool.
From Coquelicot Require Import Coquelicot.
From Verif Require Import Base Root.
Import List ListNotations.
Open Scope R_scope.

(** [x] is an end of an interval inside [lo,hi], of width at most [w], over which f changes sign *)
Definition near_change (f : R -> R) (lo hi w x : R) : Prop :=
  lo <= x <= hi /\ exists u, lo <= u <= hi /\ Rabs (x - u) <= w /\ f x * f u <= 0.

Lemma bis_loop_spec f fa tol n : forall xa dm last lo hi, fa <> 0 -> 0 < f xa * fa -> f (xa + dm) * fa < 0 ->
  lo <= xa <= hi -> lo <= xa + dm <= hi ->
  (last = None -> (1 <= n)%nat) -> (forall x, last = Some x -> near_change f lo hi (Rabs dm) x) ->
  exists x, bis_loop f fa tol n xa dm last = Ok x /\
    (f x = 0 /\ lo <= x <= hi \/ near_change f lo hi (Rmax tol (Rabs dm / 2 ^ n)) x).
Proof.
  induction n; intros xa dm last lo hi F0 Fa Fb I1 I2 HN HL; cbn [bis_loop].
  - destruct last as [x|]; [|specialize (HN eq_refl); lia]. exists x. split; auto. right. destruct (HL x eq_refl) as (H1 & u & H2 & H3 & H4).
    split; auto. exists u. split; [exact H2|split; [|exact H4]]. simpl. eapply Rle_trans; [exact H3|]. eapply Rle_trans; [|apply Rmax_r]. lra.
  - cbv zeta. set (d := dm / 2). set (xm := xa + d). assert (I3 : lo <= xm <= hi) by (unfold xm, d; lra).
    destruct (reqP (f xm) 0) as [Z|Z]; [simpl; exists xm; auto|].
    assert (NC : forall w, Rabs d <= w -> near_change f lo hi w xm).
    { intros w Hw. split; auto. destruct (Rle_dec 0 (f xm * fa)) as [P|P].
      - exists (xm + d). assert (E : xm + d = xa + dm) by (unfold xm, d; lra). rewrite E. splits; auto; try lra.
        + replace (xm - (xa + dm)) with (- d) by (unfold xm, d; lra). rewrite Rabs_Ropp. auto.
        + destruct (Rdichotomy _ _ F0); nra.
      - exists xa. splits; try lra.
        + replace (xm - xa) with d by (unfold xm; lra). auto.
        + destruct (Rdichotomy _ _ F0); nra. }
    destruct (rltP (Rabs d) tol) as [L|L]; simpl.
    + exists xm. split; auto. right. apply NC. eapply Rle_trans; [|apply Rmax_l]. lra.
    + destruct (rleP 0 (f xm * fa)) as [P|P].
      * destruct (IHn xm d (Some xm) lo hi) as (x & E & H); auto.
        -- assert (f xm * fa <> 0) by (apply Rmult_integral_contrapositive; auto). lra.
        -- replace (xm + d) with (xa + dm) by (unfold xm, d; lra). auto.
        -- replace (xm + d) with (xa + dm) by (unfold xm, d; lra). auto.
        -- discriminate.
        -- intros x Ex. injection Ex as <-. apply NC. lra.
        -- exists x. split; auto. destruct H as [H|H]; auto. right.
           replace (Rabs dm / (2 * 2 ^ n)) with (Rabs d / 2 ^ n); auto.
           unfold d. unfold Rdiv at 1 2 3. rewrite Rabs_mult, (Rabs_pos_eq (/ 2)) by lra. rewrite Rinv_mult. ring.
      * destruct (IHn xa d (Some xm) lo hi) as (x & E & H); auto; fold xm; auto; try lra.
        -- discriminate.
        -- intros x Ex. injection Ex as <-. apply NC. lra.
        -- exists x. split; auto. destruct H as [H|H]; auto. right.
           replace (Rabs dm / (2 * 2 ^ n)) with (Rabs d / 2 ^ n); auto.
           unfold d. unfold Rdiv at 1 2 3. rewrite Rabs_mult, (Rabs_pos_eq (/ 2)) by lra. rewrite Rinv_mult. ring.
Qed.

(** C50: bisection stays in the bracket and ends at a zero or within the tolerance (or the width left after
    maxiter halvings) of a change of sign. *)
Lemma bisect_change_main :
  forall f xa xb xtol rtol n, f xa * f xb <= 0 -> (1 <= n)%nat ->
  exists x, bisect xtol rtol n f xa xb = Ok x /\ Rmin xa xb <= x <= Rmax xa xb /\
    (f x = 0 \/ exists u, Rmin xa xb <= u <= Rmax xa xb /\ f x * f u <= 0 /\
       Rabs (x - u) <= Rmax (Rmin xtol (rtol * (Rabs xa + Rabs xb))) (Rabs (xb - xa) / 2 ^ n)).
Proof.
  intros f xa xb xtol rtol n S N. unfold bisect.
  assert (B : Rmin xa xb <= xa <= Rmax xa xb /\ Rmin xa xb <= xb <= Rmax xa xb).
  { unfold Rmin, Rmax. destruct (Rle_dec xa xb); lra. }
  destruct (rltP 0 (f xa * f xb)) as [P|P]; [lra|].
  destruct (reqP (f xa) 0) as [Z|Z]; [exists xa; split; [auto|]; split; [apply B|auto]|].
  destruct (reqP (f xb) 0) as [Z'|Z']; [exists xb; split; [auto|]; split; [apply B|auto]|].
  assert (S' : f xa * f xb < 0) by (assert (f xa * f xb <> 0) by (apply Rmult_integral_contrapositive; auto); lra).
  destruct (bis_loop_spec f (f xa) (Rmin xtol (rtol * (Rabs xa + Rabs xb))) n xa (xb - xa) None (Rmin xa xb) (Rmax xa xb)) as (x & E & H); auto.
  - destruct (Rdichotomy _ _ Z); nra.
  - replace (xa + (xb - xa)) with xb by lra. lra.
  - apply B.
  - replace (xa + (xb - xa)) with xb by lra. apply B.
  - intros x Ex. discriminate.
  - exists x. split; auto. destruct H as [(H1 & H2)|(H1 & u & H2 & H3 & H4)]; split; auto. right. exists u. auto.
Qed.
(** C50: without a change of sign it raises. *)
Lemma bisect_raises_main :
  forall f xa xb xtol rtol n, 0 < f xa * f xb -> bisect xtol rtol n f xa xb = Err ERuntime.
Proof. intros. unfold bisect. destruct (rltP 0 (f xa * f xb)); [auto|tauto]. Qed.

Lemma sign_root f u v : (forall x, continuity_pt f x) -> f u * f v <= 0 -> exists r, Rmin u v <= r <= Rmax u v /\ f r = 0.
Proof.
  intros C S.
  assert (G : forall u v, u <= v -> f u * f v <= 0 -> exists r, u <= r <= v /\ f r = 0).
  { clear u v S. intros u v L S.
    destruct (Req_dec (f u) 0) as [Z|Z]; [exists u; split; auto; lra|].
    destruct (Req_dec (f v) 0) as [Z'|Z']; [exists v; split; auto; lra|].
    assert (L' : u < v). { destruct (Rle_lt_or_eq_dec _ _ L); auto. subst. exfalso. destruct (Rdichotomy _ _ Z); nra. }
    destruct (Rdichotomy _ _ Z) as [N|P].
    - destruct (IVT f u v) as (z & Hz & E); auto; [|exists z; auto]. nra.
    - destruct (IVT (fun x => - f x) u v) as (z & Hz & E); auto; try lra; [| nra |exists z; split; auto; lra].
      intros x. apply continuity_pt_opp. apply C. }
  unfold Rmin, Rmax. destruct (Rle_dec u v) as [L|L]; [apply G; auto|].
  apply G; [lra|]. rewrite Rmult_comm. auto.
Qed.
(** C50: for a continuous function there is a zero in the bracket within that distance of the result. *)
Lemma bisect_root_main :
  forall f xa xb xtol rtol n, (forall x, continuity_pt f x) -> f xa * f xb <= 0 -> (1 <= n)%nat ->
  exists x r, bisect xtol rtol n f xa xb = Ok x /\ f r = 0 /\ Rmin xa xb <= r <= Rmax xa xb /\
    Rabs (x - r) <= Rmax (Rmin xtol (rtol * (Rabs xa + Rabs xb))) (Rabs (xb - xa) / 2 ^ n).
Proof.
  intros f xa xb xtol rtol n C S N.
  destruct (bisect_change_main f xa xb xtol rtol n S N) as (x & E & I & [Z|(u & J & S' & W)]).
  - exists x, x. splits; auto; try lra. unfold Rminus. rewrite Rplus_opp_r, Rabs_R0.
    eapply Rle_trans; [|apply Rmax_r]. apply Rmult_le_pos; [apply Rabs_pos|]. left. apply Rinv_0_lt_compat. apply pow_lt. lra.
  - destruct (sign_root f x u C S') as (r & Hr & Er). exists x, r. splits; auto.
    + unfold Rmin, Rmax in *. destruct (Rle_dec x u); destruct (Rle_dec xa xb); lra.
    + unfold Rmin, Rmax in *. destruct (Rle_dec x u); destruct (Rle_dec xa xb); lra.
    + eapply Rle_trans; [|exact W]. unfold Rmin, Rmax in Hr. destruct (Rle_dec x u).
      * rewrite (Rabs_left1 (x - r)), (Rabs_left1 (x - u)) by lra. lra.
      * rewrite (Rabs_right (x - r)), (Rabs_right (x - u)) by lra. lra.
Qed.
(** C50: with enough iterations the error is below the tolerance. *)
Lemma bisect_converges_main :
  forall f xa xb xtol rtol, (forall x, continuity_pt f x) -> f xa * f xb <= 0 -> 0 < xtol -> 0 < rtol ->
  exists N, forall n, (N <= n)%nat -> exists x r, bisect xtol rtol n f xa xb = Ok x /\ f r = 0 /\ Rabs (x - r) <= xtol.
Proof.
  intros f xa xb xtol rtol C S Hx Hr.
  destruct (pow_lt_1_zero (1/2) ltac:(rewrite Rabs_pos_eq; lra) (xtol / (Rabs (xb - xa) + 1))) as (N & HN).
  { apply Rdiv_lt_0_compat; auto. pose proof (Rabs_pos (xb - xa)). lra. }
  exists (N + 1)%nat. intros n Hn. destruct (bisect_root_main f xa xb xtol rtol n C S ltac:(lia)) as (x & r & E & Z & _ & W).
  exists x, r. splits; auto. eapply Rle_trans; [exact W|]. apply Rmax_lub; [apply Rmin_l|].
  specialize (HN n ltac:(lia)). rewrite Rabs_pos_eq in HN by (apply pow_le; lra).
  pose proof (Rabs_pos (xb - xa)) as A. unfold Rdiv in *. rewrite Rmult_1_l, pow_inv in HN by lra.
  assert (/ 2 ^ n * (Rabs (xb - xa) + 1) < xtol).
  { apply (Rmult_lt_compat_r (Rabs (xb - xa) + 1)) in HN; [|lra]. rewrite Rmult_assoc, Rinv_l, Rmult_1_r in HN; lra. }
  assert (0 < / 2 ^ n) by (apply Rinv_0_lt_compat, pow_lt; lra). nra.
Qed.
(** C50 (finding): with maxiter = 0 the result variable is unbound. *)
Lemma bisect_no_iterations_main :
  forall f xa xb xtol rtol, f xa * f xb < 0 -> bisect xtol rtol 0 f xa xb = Err EName.
Proof.
  intros f xa xb xtol rtol S. unfold bisect. destruct (rltP 0 (f xa * f xb)); [lra|].
  destruct (reqP (f xa) 0) as [Z|Z]; [rewrite Z in S; lra|]. destruct (reqP (f xb) 0) as [Z'|Z']; [rewrite Z' in S; lra|]. reflexivity.
Qed.

Lemma INR_above x : exists n, x < INR n.
Proof. destruct (archimed x) as (A & _). exists (Z.to_nat (up x)). destruct (Z_le_dec 0 (up x)) as [L|L]; [rewrite INR_IZR_INZ, Z2Nat.id by auto; lra|].
  assert (IZR (up x) < 0) by (apply IZR_lt; lia). pose proof (pos_INR (Z.to_nat (up x))). lra. Qed.
Lemma minf_loop_bracket fn c M : (forall x, x < M -> fn x <= c) -> forall n a b fuel, a + 1 <= b -> c <= fn b -> a - INR n < M -> (n <= fuel)%nat ->
  exists a' b', minf_loop fn c fuel a b = SBracket a' b' /\ a' < b' <= b /\ fn a' <= c <= fn b'.
Proof.
  intros HM. induction n; intros a b fuel W Fb A L; destruct fuel as [|fuel]; cbn [minf_loop]; destruct (rltP c (fn a)) as [Lt|Lt];
    try (exists a, b; splits; auto; lra); try rewrite S_INR in A; try (change (INR 0) with 0 in A); try lia.
  - exfalso. specialize (HM a ltac:(lra)). lra.
  - exfalso. specialize (HM a ltac:(lra)). lra.
  - destruct (IHn (a - (b - a) * (12/10)) a fuel) as (a' & b' & E & H1 & H2); try lra; try lia.
    + exists a', b'. splits; auto; lra.
Qed.
Lemma minf_loop_inv fn c fuel : forall a b a' b', a < b -> c <= fn b -> minf_loop fn c fuel a b = SBracket a' b' -> a' < b' <= b /\ fn a' <= c <= fn b'.
Proof.
  induction fuel; intros a b a' b' L Fb; cbn [minf_loop]; destruct (rltP c (fn a)); try discriminate; intros E.
  - injection E as <- <-. lra.
  - apply IHfuel in E; lra.
  - injection E as <- <-. lra.
Qed.
(** C50: the search towards -inf: for a function at least c at b and at most c far to the left it ends with an
    interval left of b over which c is crossed; below c at b it reports nan; an interval it ends with is always
    such a crossing. *)
Lemma minf_bracket_main :
  forall fn b c, c <= fn b -> (exists M, forall x, x < M -> fn x <= c) ->
  exists N, forall fuel, (N <= fuel)%nat -> exists a' b', findinv_minf fn fuel b c = SBracket a' b' /\ a' < b' <= b /\ fn a' <= c <= fn b'.
Proof.
  intros fn b c H (M & HM). unfold findinv_minf. destruct (rleP c (fn b)); [simpl|tauto].
  set (a := b - Rmax 1 (1 / 10 * Rabs b)). destruct (INR_above (a - M)) as (n & Hn). exists n. intros fuel HF.
  apply (minf_loop_bracket fn c M HM n); auto; try lra. pose proof (Rmax_l 1 (1/10 * Rabs b)). unfold a. lra.
Qed.
Lemma minf_sound_main :
  forall fn fuel b c,
  (fn b < c -> findinv_minf fn fuel b c = SNan) /\
  (forall a' b', findinv_minf fn fuel b c = SBracket a' b' -> a' < b' <= b /\ fn a' <= c <= fn b').
Proof.
  intros fn fuel b c. unfold findinv_minf. destruct (rleP c (fn b)); simpl; split; auto; try lra; try discriminate.
  intros a' b' E. apply minf_loop_inv in E; auto. pose proof (Rmax_l 1 (1/10 * Rabs b)). lra.
Qed.

Lemma pinf_loop_bracket fn c M : (forall x, M < x -> c <= fn x) -> forall n a b fuel, a + 1 <= b -> fn a <= c -> M < b + INR n -> (n <= fuel)%nat ->
  exists a' b', pinf_loop fn c fuel a b = SBracket a' b' /\ a <= a' < b' /\ fn a' <= c <= fn b'.
Proof.
  intros HM. induction n; intros a b fuel W Fb A L; destruct fuel as [|fuel]; cbn [pinf_loop]; destruct (rltP (fn b) c) as [Lt|Lt];
    try (exists a, b; splits; auto; lra); try rewrite S_INR in A; try (change (INR 0) with 0 in A); try lia.
  - exfalso. specialize (HM b ltac:(lra)). lra.
  - exfalso. specialize (HM b ltac:(lra)). lra.
  - destruct (IHn b (b + (b - a) * (12/10)) fuel) as (a' & b' & E & H1 & H2); try lra; try lia.
    + exists a', b'. splits; auto; lra.
Qed.
Lemma pinf_loop_inv fn c fuel : forall a b a' b', a < b -> fn a <= c -> pinf_loop fn c fuel a b = SBracket a' b' -> a <= a' < b' /\ fn a' <= c <= fn b'.
Proof.
  induction fuel; intros a b a' b' L Fb; cbn [pinf_loop]; destruct (rltP (fn b) c); try discriminate; intros E.
  - injection E as <- <-. lra.
  - apply IHfuel in E; lra.
  - injection E as <- <-. lra.
Qed.
(** C50: the search towards +inf for an increasing function. *)
Lemma pinf_bracket_main :
  forall fn a c, fn a <= c -> (exists M, forall x, M < x -> c <= fn x) ->
  exists N, forall fuel, (N <= fuel)%nat -> exists a' b', findinv_pinf fn true fuel a c = SBracket a' b' /\ a <= a' < b' /\ fn a' <= c <= fn b'.
Proof.
  intros fn a c H (M & HM). unfold findinv_pinf. destruct (rleP (1 * (fn a - c)) 0); [simpl|lra].
  set (b := a + Rmax 1 (1 / 10 * Rabs a)). destruct (INR_above (M - b)) as (n & Hn). exists n. intros fuel HF.
  apply (pinf_loop_bracket fn c M HM n); auto; try lra. pose proof (Rmax_l 1 (1/10 * Rabs a)). unfold b. lra.
Qed.
Lemma pinf_sound_main :
  forall fn fuel a c,
  (c < fn a -> findinv_pinf fn true fuel a c = SNan) /\
  (forall a' b', findinv_pinf fn true fuel a c = SBracket a' b' -> a <= a' < b' /\ fn a' <= c <= fn b').
Proof.
  intros fn fuel a c. unfold findinv_pinf. destruct (rleP (1 * (fn a - c)) 0); simpl; split; auto; try lra; try discriminate.
  intros a' b' E. apply pinf_loop_inv in E; auto; [|lra]. pose proof (Rmax_l 1 (1/10 * Rabs a)). lra.
Qed.
(** C50 (finding): the branch for decreasing functions searches away from the crossing: for f(x) = -x and c = -1/2 the
    crossing lies in the very first interval, yet the search never ends. *)
Lemma pinf_decreasing_refuted_main :
  exists fn a c, (forall x y, x < y -> fn y < fn x) /\ c <= fn a /\ (exists r, a <= r <= a + 1 /\ fn r = c) /\
    forall fuel, findinv_pinf fn false fuel a c = SRunning.
Proof.
  exists (fun x => - x), 0, (-1/2). splits; try lra.
  - intros; lra.
  - exists (1/2). lra.
  - intros fuel. unfold findinv_pinf. destruct (rleP (-1 * (- 0 - -1/2)) 0); [simpl|lra].
    assert (G : forall fuel a b, 1 <= b - a -> 1 <= b -> pinf_loop (fun x => - x) (-1/2) fuel a b = SRunning).
    { clear. induction fuel; intros a b H1 H2; cbn [pinf_loop]; destruct (rltP (- b) (-1/2)); try lra; auto. apply IHfuel; lra. }
    pose proof (Rmax_l 1 (1/10 * Rabs 0)). apply G; lra.
Qed.

(** C50: the two searches followed by bisection find the place where a continuous function reaches c. *)
Lemma findinv_minf_root_main :
  forall fn b c xtol rtol, (forall x, continuity_pt fn x) -> c <= fn b -> (exists M, forall x, x < M -> fn x <= c) -> 0 < xtol -> 0 < rtol ->
  exists N, forall fuel, (N <= fuel)%nat -> exists n0, forall n, (n0 <= n)%nat ->
    exists x r, search_inv (bisect xtol rtol n) fn c (findinv_minf fn fuel b c) = Some (Ok x) /\ fn r = c /\ Rabs (x - r) <= xtol.
Proof.
  intros fn b c xtol rtol C H HM Hx Hr. destruct (minf_bracket_main fn b c H HM) as (N & HN). exists N. intros fuel L.
  destruct (HN fuel L) as (a' & b' & E & _ & S). rewrite E. simpl.
  destruct (bisect_converges_main (fun x => fn x - c) a' b' xtol rtol) as (k & Hk); auto.
  - intros x. apply continuity_pt_minus; auto. apply continuity_pt_const. intros ? ?; auto.
  - nra.
  - exists k. intros n Hn. destruct (Hk n Hn) as (x & r & E' & Z & D). exists x, r. unfold findinv. rewrite E'. splits; auto. lra.
Qed.
Lemma findinv_pinf_root_main :
  forall fn a c xtol rtol, (forall x, continuity_pt fn x) -> fn a <= c -> (exists M, forall x, M < x -> c <= fn x) -> 0 < xtol -> 0 < rtol ->
  exists N, forall fuel, (N <= fuel)%nat -> exists n0, forall n, (n0 <= n)%nat ->
    exists x r, search_inv (bisect xtol rtol n) fn c (findinv_pinf fn true fuel a c) = Some (Ok x) /\ fn r = c /\ Rabs (x - r) <= xtol.
Proof.
  intros fn a c xtol rtol C H HM Hx Hr. destruct (pinf_bracket_main fn a c H HM) as (N & HN). exists N. intros fuel L.
  destruct (HN fuel L) as (a' & b' & E & _ & S). rewrite E. simpl.
  destruct (bisect_converges_main (fun x => fn x - c) a' b' xtol rtol) as (k & Hk); auto.
  - intros x. apply continuity_pt_minus; auto. apply continuity_pt_const. intros ? ?; auto.
  - nra.
  - exists k. intros n Hn. destruct (Hk n Hn) as (x & r & E' & Z & D). exists x, r. unfold findinv. rewrite E'. splits; auto. lra.
Qed.
