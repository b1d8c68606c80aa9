(** Main lemmas on copulas. *)
From Coq Require Import Reals Lra Lia List Bool Arith Permutation.
From Coquelicot Require Import Coquelicot.
From Verif Require Import Base AtomFacts Copula CopulaSpec CopulaFacts CopulaFacts2 CopulaFacts3.
Import List ListNotations.
Open Scope R_scope.

(** Any two-dimensional copula lies between the Frechet bounds, so Blomqvist's beta is between -1 and 1. *)
Lemma frechet_bounds_main :
  forall (C : R -> R -> R) u v, is_copula2 C -> in01 u -> in01 v ->
  Rmax (u + v - 1) 0 <= C u v <= Rmin u v /\ -1 <= blomqvist (fun X => C (nth 0 X 0) (nth 1 X 0)) <= 1.
Proof.
  intros C u v H U V. split; [apply frechet; auto|].
  unfold blomqvist. simpl. pose proof (frechet C (/ 2) (/ 2) H ltac:(unfold in01; lra) ltac:(unfold in01; lra)) as F.
  rewrite Rmax_right, Rmin_left in F by lra. lra.
Qed.

(** The independence copula multiplies its arguments point by point, and the product is a copula. *)
Lemma pi_copula_main :
  is_copula2 (fun u v => u * v) /\
  forall X n, X <> [] -> Forall (fun x => length x = n) X ->
  exists r, pi_ccdf X = Ok r /\ length r = n /\ forall i, (i < n)%nat -> nth i r 0 = prodR (map (fun x => nth i x 0) X).
Proof.
  split; [apply pi_copula2|]. intros X n N F. destruct X as [|x0 X0]; [congruence|]. set (X := x0 :: X0) in *.
  assert (L0 : length x0 = n) by (inversion F; auto).
  destruct (fold_zip Rmult X n (map (fun _ => 1) x0)) as (L & V); auto; [rewrite map_length; auto|].
  eexists. split; [reflexivity|]. split; auto. intros i I. rewrite V by auto. rewrite nth_const by lia. rewrite fold_mult. lra.
Qed.

(** The upper bound copula takes the minimum point by point when there are several points (or none). *)
Lemma m_copula_main :
  is_copula2 Rmin /\
  forall X n, X <> [] -> n <> 1%nat -> Forall (fun x => length x = n) X ->
  exists r, m_ccdf X = Ok r /\ length r = n /\ forall i, (i < n)%nat -> nth i r 0 = minR (map (fun x => nth i x 0) X).
Proof.
  split; [apply m_copula2|]. intros X n N N1 F. destruct X as [|x0 X0]; [congruence|]. set (X := x0 :: X0) in *.
  assert (L0 : length x0 = n) by (inversion F; auto).
  destruct (fold_zip (fun m x => if rlt x m then x else m) X n (map (fun _ => 0 + 1) x0)) as (L & V); auto; [rewrite map_length; auto|].
  exists (fold_left (zipR (fun m x => if rlt x m then x else m)) X (map (fun _ => 0 + 1) x0)). split.
  - unfold m_ccdf. unfold X at 1. f_equal. apply (m_fold X n); auto. rewrite map_length; auto.
  - split; auto. intros i I. rewrite V by auto. rewrite nth_const by lia. rewrite Rplus_0_l. apply fold_min1.
Qed.

(** At a single point it returns its last argument: M(u,v) = v, above min(u,v) when u < v. *)
Lemma m_scalar_refuted_main :
  (forall u v, m_ccdf [[u]; [v]] = Ok [v]) /\
  exists u v c, in01 u /\ in01 v /\ m_ccdf [[u]; [v]] = Ok [c] /\ Rmin u v < c.
Proof.
  assert (E : forall u v, m_ccdf [[u]; [v]] = Ok [v]) by reflexivity. split; auto.
  exists (1/4), (1/2), (1/2). unfold in01. splits; try lra; auto. rewrite Rmin_left; lra.
Qed.

(** The lower bound copula of two arguments, point by point: max(u+v-1, 0). *)
Lemma w_copula_main :
  is_copula2 (fun u v => Rmax (u + v - 1) 0) /\
  forall x y, length x = length y ->
  exists r, w_ccdf [x; y] = Ok r /\ length r = length x /\
    forall i, (i < length x)%nat -> nth i r 0 = Rmax (nth i x 0 + nth i y 0 - 1) 0.
Proof.
  split; [apply w_copula2|]. intros x y L.
  destruct (fold_zip Rplus [x; y] (length x) (map (fun _ => 0) x)) as (L' & V); [apply map_length|repeat constructor; auto|].
  eexists. split; [reflexivity|]. split; [rewrite !map_length; auto|]. intros i I.
  assert (K : forall (f : R -> R) l, (i < length l)%nat -> nth i (map f l) 0 = f (nth i l 0)).
  { clear. intros f l. revert i. induction l; intros [|i] I; simpl in *; try lia; auto. apply IHl. lia. }
  rewrite !K by (rewrite ?map_length; lia). rewrite V by auto. rewrite nth_const by auto. simpl.
  destruct (rltP (0 + nth i x 0 + nth i y 0 - 1) 0); [rewrite Rmax_right|rewrite Rmax_left]; lra.
Qed.

(** In three dimensions the same code subtracts 1 instead of 2, so its margins are not uniform: W(1,1,u) = 1+u. *)
Lemma w_dimension_refuted_main :
  exists u r, in01 u /\ w_ccdf [[1]; [1]; [u]] = Ok [r] /\ 1 < r.
Proof.
  exists (1/2), (3/2). split; [unfold in01; lra|]. split; [|lra]. unfold w_ccdf. simpl.
  destruct (rltP (0 + 1 + 1 + 1 / 2 - 1) 0); [lra|]. do 2 f_equal. lra.
Qed.

(** Gumbel copula, theta >= 1, any number of arguments. *)
Lemma gumbel_copula_main :
  forall th d, 1 <= th ->
  exists C : list R -> R,
    (forall X, length X = d -> Forall in01 X -> gumbel th d X = Ok (Some (Finite (C X)))) /\
    (forall X, length X <> d -> gumbel th d X = Err EAssert) /\
    copula_bounds d C /\ is_copula2 (fun u v => C [u; v]) /\
    (forall X, X <> [] -> Forall (fun u => 0 < u < 1) X -> C X = gumbel_formula th X).
Proof.
  intros th d TH. pose proof (gumbel_gen th ltac:(lra)) as G. pose proof (gumbel_convex th TH) as V. exists (arch (gu_f th) (gu_g th)). splits.
  - intros X L F. apply (arch_val _ _ _ _ G); auto.
  - intros X L. apply arch_len; auto.
  - apply (arch_bounds _ _ _ _ G V).
  - apply (arch_copula2 _ _ _ _ G V).
  - intros X N F. apply gumbel_closed; auto. lra.
Qed.

(** Clayton copula, theta > 0. *)
Lemma clayton_copula_main :
  forall th d, 0 < th ->
  exists C : list R -> R,
    (forall X, length X = d -> Forall in01 X -> clayton th d X = Ok (Some (Finite (C X)))) /\
    (forall X, length X <> d -> clayton th d X = Err EAssert) /\
    copula_bounds d C /\ is_copula2 (fun u v => C [u; v]) /\
    (forall X, Forall (fun u => 0 < u < 1) X -> C X = clayton_formula th X).
Proof.
  intros th d TH. pose proof (clayton_gen th TH) as G. pose proof (clayton_convex th TH) as V. exists (arch (cl_f th) (cl_g th)). splits.
  - intros X L F. apply (arch_val _ _ _ _ G); auto.
  - intros X L. apply arch_len; auto.
  - apply (arch_bounds _ _ _ _ G V).
  - apply (arch_copula2 _ _ _ _ G V).
  - intros X F. apply clayton_closed; auto.
Qed.

(** The documentation of the Clayton copula promises the lower bound W at theta = -1.  The negative part is not cut
    off: C(1/5, 3/10) = -1/2. *)
Lemma clayton_negative_refuted_main :
  exists u v, in01 u /\ in01 v /\ clayton (Ropp 1) 2 [u; v] = Ok (Some (Finite (Ropp (1/2)))).
Proof.
  assert (E1 : 1 / Ropp 1 = Ropp 1) by field. assert (E2 : -1 / Ropp 1 = 1) by (field; lra). assert (E3 : - Ropp 1 = 1) by ring.
  assert (I1 : Int_part 1 = 1%Z).
  { unfold Int_part. rewrite <- (tech_up 1 2); [reflexivity|simpl; lra|simpl; lra]. }
  exists (1/5), (3/10). split; [unfold in01; lra|]. split; [unfold in01; lra|].
  unfold clayton, archim_ccdf. cbn [length Nat.eqb].
  assert (F : forall t, 0 < t -> clayton_fi (Ropp 1) t = Some (Finite (1 - t))).
  { intros t T. unfold clayton_fi, npow. rewrite (proj2 (rlt_true 0 t)) by auto. cbn. rewrite E1, E3, Rpower_1 by auto. do 2 f_equal. ring. }
  cbn [fi_sum]. rewrite !F by lra. cbn [obind nadd Rbar_plus' ]. cbn.
  rewrite (proj2 (blt_false _ _)) by (simpl; lra).
  unfold clayton_fi_inv. cbn [Rbar_mult Rbar_mult' Rbar_plus Rbar_plus']. rewrite E2. unfold npow.
  rewrite (proj2 (rlt_false _ _)) by lra. destruct (reqP (1 + (0 + (1 - 1 / 5) + (1 - 3 / 10)) * - (1)) 0); [lra|].
  rewrite I1. simpl IZR. rewrite req_refl. simpl. do 3 f_equal. lra.
Qed.

(** Frank copula, any theta except 0. *)
Lemma frank_copula_main :
  forall th d, th <> 0 ->
  exists C : list R -> R,
    (forall X, length X = d -> Forall in01 X -> frank th d X = Ok (Some (Finite (C X)))) /\
    (forall X, length X <> d -> frank th d X = Err EAssert) /\
    copula_bounds d C /\ is_copula2 (fun u v => C [u; v]) /\
    (forall X, Forall (fun u => 0 < u < 1) X -> C X = frank_formula th X).
Proof.
  intros th d TH. pose proof (frank_gen th TH) as G. pose proof (frank_convex th TH) as V. exists (arch (fr_f th) (fr_g th)). splits.
  - intros X L F. apply (arch_val _ _ _ _ G); auto.
  - intros X L. apply arch_len; auto.
  - apply (arch_bounds _ _ _ _ G V).
  - apply (arch_copula2 _ _ _ _ G V).
  - intros X F. apply frank_closed; auto.
Qed.

(** The generators and their inverses undo each other. *)
Lemma generators_inverse_main :
  forall th t s, 0 < th -> 0 < t <= 1 -> 0 <= s ->
  obind (gumbel_fi th t) (gumbel_fi_inv th) = Some (Finite t) /\
  obind (clayton_fi th t) (clayton_fi_inv th) = Some (Finite t) /\
  obind (frank_fi th t) (frank_fi_inv th) = Some (Finite t) /\
  obind (gumbel_fi_inv th (Finite s)) (fun t => gumbel_fi th (real t)) = Some (Finite s) /\
  obind (clayton_fi_inv th (Finite s)) (fun t => clayton_fi th (real t)) = Some (Finite s) /\
  obind (frank_fi_inv th (Finite s)) (fun t => frank_fi th (real t)) = Some (Finite s).
Proof.
  assert (K : forall fi fi_inv f g, gen fi fi_inv f g -> forall t s, 0 < t <= 1 -> 0 <= s ->
    obind (fi t) fi_inv = Some (Finite t) /\ obind (fi_inv (Finite s)) (fun t => fi (real t)) = Some (Finite s)).
  { intros fi fi_inv f g G t s T S. split.
    - rewrite (gn_fi _ _ _ _ G) by auto. simpl. rewrite (gn_inv _ _ _ _ G) by (apply (gn_nn _ _ _ _ G); auto). rewrite (gn_gf _ _ _ _ G) by auto. auto.
    - rewrite (gn_inv _ _ _ _ G) by auto. simpl. rewrite (gn_fi _ _ _ _ G) by (apply (gn_g _ _ _ _ G); auto). rewrite (gn_fg _ _ _ _ G) by auto. auto. }
  intros th t s TH T S.
  destruct (K _ _ _ _ (gumbel_gen th TH) t s T S) as (A1 & A2). destruct (K _ _ _ _ (clayton_gen th TH) t s T S) as (B1 & B2).
  destruct (K _ _ _ _ (frank_gen th ltac:(lra)) t s T S) as (C1 & C2). auto 7.
Qed.

(** Eliminating variables of an Archimedean copula gives the copula of the others: the same value as the full
    copula with the eliminated arguments at 1. *)
Lemma copula_eliminate_main :
  forall th keep X, 1 <= th -> length keep = length X -> Forall in01 X ->
  (forall k x, In (k, x) (combine keep X) -> k = false -> x = 1) ->
  archim_eliminate (gumbel_fi th) (gumbel_fi_inv th) keep (select keep X) = gumbel th (length X) X /\
  archim_eliminate (clayton_fi th) (clayton_fi_inv th) keep (select keep X) = clayton th (length X) X /\
  archim_eliminate (frank_fi th) (frank_fi_inv th) keep (select keep X) = frank th (length X) X.
Proof.
  assert (K : forall fi fi_inv f g, gen fi fi_inv f g -> forall keep X, length keep = length X -> Forall in01 X ->
    (forall k x, In (k, x) (combine keep X) -> k = false -> x = 1) ->
    archim_eliminate fi fi_inv keep (select keep X) = archim_ccdf fi fi_inv (length X) X).
  { intros fi fi_inv f g G keep X L F K. unfold archim_eliminate.
    rewrite (arch_val _ _ _ _ G) by (try apply select_len; try apply select_Forall; auto). rewrite (arch_val _ _ _ _ G) by auto.
    rewrite arch_select; auto. apply (gn_1 _ _ _ _ G). }
  intros th keep X TH L F E.
  pose proof (K _ _ _ _ (gumbel_gen th ltac:(lra)) keep X L F E). pose proof (K _ _ _ _ (clayton_gen th ltac:(lra)) keep X L F E).
  pose proof (K _ _ _ _ (frank_gen th ltac:(lra)) keep X L F E). auto.
Qed.

(** The density of an Archimedean copula in two dimensions is the mixed derivative of the copula, whenever the
    derivatives handed to it are the derivatives of the generator and of its inverse. *)
Lemma archim_density_main :
  forall (f f' g g' g'' : R -> R) u v, 0 < u < 1 -> 0 < v < 1 ->
  (forall t, 0 < t < 1 -> 0 < f t /\ is_derive f t (f' t)) ->
  (forall s, 0 < s -> is_derive g s (g' s) /\ is_derive g' s (g'' s)) ->
  exists c, archim_cpdf f f' g'' 2 [u; v] = Ok c /\
  exists Cu : R -> R, locally v (fun v' => is_derive (fun u' => g (f u' + f v')) u (Cu v')) /\ is_derive Cu v c.
Proof.
  intros f f' g g' g'' u v U V F G.
  destruct (arch_mixed f f' g g' g'' u v U V) as (Cu & L & D); try (intros; apply F; auto); try (intros; apply G; auto).
  eexists. split; [reflexivity|]. exists Cu. split; auto. cbn [fold_left]. rewrite Rplus_0_l, Rmult_1_l. exact D.
Qed.

(** The explicit two-dimensional density of the Gumbel copula is the mixed derivative of its distribution
    function, which agrees with the general class. *)
Lemma gumbel2d_density_main :
  forall th u v, 1 <= th -> 0 < u < 1 -> 0 < v < 1 ->
  gumbel th 2 [u; v] = Ok (Some (Finite (g2_ccdf th [u; v]))) /\
  exists Cu : R -> R, locally v (fun v' => is_derive (fun u' => g2_ccdf th [u'; v']) u (Cu v')) /\ is_derive Cu v (g2_cpdf th [u; v]).
Proof.
  intros th u v TH U V. split; [|apply gumbel2d_mixed; auto; lra].
  destruct (gumbel_copula_main th 2 TH) as (C & E & _ & _ & _ & Fm). rewrite E by (auto; repeat constructor; lra).
  rewrite Fm by (try discriminate; repeat constructor; lra). do 3 f_equal. unfold gumbel_formula, g2_ccdf, g2_fi_inv, g2_fi. cbn.
  rewrite Rplus_0_l. unfold sumR. simpl. rewrite Rplus_0_r. unfold Rdiv. rewrite Rmult_1_l. reflexivity.
Qed.

(** The same for the Frank copula. *)
Lemma frank2d_density_main :
  forall th u v, th <> 0 -> 0 < u < 1 -> 0 < v < 1 ->
  frank th 2 [u; v] = Ok (Some (Finite (f2_ccdf th [u; v]))) /\
  exists Cu : R -> R, locally v (fun v' => is_derive (fun u' => f2_ccdf th [u'; v']) u (Cu v')) /\ is_derive Cu v (f2_cpdf th [u; v]).
Proof.
  intros th u v TH U V. split; [|apply frank2d_mixed; auto].
  destruct (frank_copula_main th 2 TH) as (C & E & _ & _ & _ & Fm). rewrite E by (auto; repeat constructor; lra).
  rewrite Fm by (repeat constructor; lra). do 3 f_equal. rewrite f2_ccdf2. unfold frank_formula, prodR. simpl.
  destruct (frank2d_den th u v TH) as (_ & B & _); try lra. replace (- (1 / th)) with (- / th) by (field; auto). do 2 f_equal. field. lra.
Qed.

(** With marginals: the joint density is the mixed derivative of the joint distribution function. *)
Lemma joint_density_main :
  forall (C : R -> R -> R) (c : list R -> R) (F f G g : R -> R) x y,
  (forall u v, 0 < u < 1 -> 0 < v < 1 ->
     exists Cu : R -> R, locally v (fun v' => is_derive (fun u' => C u' v') u (Cu v')) /\ is_derive Cu v (c [u; v])) ->
  is_derive F x (f x) -> is_derive G y (g y) -> 0 < F x < 1 -> 0 < G y < 1 ->
  exists H1 : R -> R,
    locally y (fun y' => is_derive (fun x' => joint_cdf (fun X => C (nth 0 X 0) (nth 1 X 0)) [(F, f); (G, g)] [x'; y']) x (H1 y')) /\
    is_derive H1 y (joint_pdf c [(F, f); (G, g)] [x; y]).
Proof.
  intros C c F f G g x y M DF DG Fx Gy.
  destruct (joint_mixed C (fun u v => c [u; v]) F (f x) G (g y) x y M DF DG Fx Gy) as (Cu & L & D).
  exists Cu. split; auto. unfold joint_pdf. simpl. rewrite Rmult_1_l. exact D.
Qed.

(** Where the other marginals have reached 1, the joint distribution function is the marginal one. *)
Lemma joint_margins_main :
  forall d (C : list R -> R) (ms1 ms2 : list marginal) m X1 X2 x, copula_bounds d C -> length (ms1 ++ m :: ms2) = d ->
  length X1 = length ms1 -> length X2 = length ms2 -> in01 (fst m x) ->
  (forall k z, In (k, z) (combine ms1 X1) \/ In (k, z) (combine ms2 X2) -> fst k z = 1) ->
  joint_cdf C (ms1 ++ m :: ms2) (X1 ++ x :: X2) = fst m x.
Proof.
  intros d C ms1 ms2 m X1 X2 x (_ & M & _) L L1 L2 U K.
  set (h := fun p : marginal * R => fst (fst p) (snd p)). change (C (map h (combine (ms1 ++ m :: ms2) (X1 ++ x :: X2))) = fst m x).
  assert (A : forall (ms : list marginal) X, length X = length ms -> (forall (k : marginal) z, In (k, z) (combine ms X) -> fst k z = 1) ->
     map h (combine ms X) = repeat 1 (length ms)).
  { clear. intros ms. induction ms as [|k ms IH]; intros [|z X] L K; try discriminate; auto. simpl. f_equal; [apply (K k z); simpl; auto|].
    apply IH; [simpl in L; lia|]. intros; apply K; simpl; auto. }
  assert (B : combine (ms1 ++ m :: ms2) (X1 ++ x :: X2) = combine ms1 X1 ++ (m, x) :: combine ms2 X2).
  { clear -L1. revert X1 L1. induction ms1; intros [|z X1] L1; try discriminate; auto. simpl. f_equal. apply IHms1. simpl in L1. lia. }
  rewrite B, map_app. rewrite map_cons. rewrite app_length in L. cbn [length] in L.
  rewrite (A ms1 X1), (A ms2 X2) by eauto. change (h (m, x)) with (fst m x). apply M; auto.
Qed.

(** The dual function F(x) + G(y) - H(x,y) passes the raw arguments instead of their probabilities to the copula. *)
Lemma dual_cdf_refuted_main :
  (forall (C : list R -> R) F f G g x y, F x = x -> G y = y ->
     dual_cdf C [(F, f); (G, g)] [x; y] = F x + G y - joint_cdf C [(F, f); (G, g)] [x; y]) /\
  exists F f x, in01 (F x) /\
    dual_cdf (fun X => prodR X) [(F, f); (F, f)] [x; x] < F x + F x - joint_cdf (fun X => prodR X) [(F, f); (F, f)] [x; x].
Proof.
  split.
  - intros C F f G g x y Ex Ey. unfold dual_cdf, joint_cdf. simpl. rewrite Ex, Ey. ring.
  - exists (fun x => x / 2), (fun _ => / 2), 1. unfold in01, dual_cdf, joint_cdf, prodR. simpl. lra.
Qed.
