(** Archimedean copulas from any convex generator. *)
From Coq Require Import Reals Lra Lia List Bool Arith Permutation.
From Coquelicot Require Import Coquelicot.
From Verif Require Import Base AtomFacts Copula CopulaSpec.
Import List ListNotations.
Open Scope R_scope.

Record gen (fi : R -> option Rbar) (fi_inv : Rbar -> option Rbar) (f g : R -> R) : Prop := mkgen {
  gn_fi : forall t, 0 < t <= 1 -> fi t = Some (Finite (f t));
  gn_fi0 : fi 0 = Some p_infty;
  gn_inv : forall s, 0 <= s -> fi_inv (Finite s) = Some (Finite (g s));
  gn_inv0 : fi_inv p_infty = Some (Finite 0);
  gn_1 : f 1 = 0;
  gn_nn : forall t, 0 < t <= 1 -> 0 <= f t;
  gn_gf : forall t, 0 < t <= 1 -> g (f t) = t;
  gn_g : forall s, 0 <= s -> 0 < g s <= 1;
  gn_fg : forall s, 0 <= s -> f (g s) = s;
  gn_mon : forall s t, 0 <= s -> s <= t -> g t <= g s
}.
Definition convex (g : R -> R) : Prop :=
  forall a x y, 0 <= a -> 0 <= x -> 0 <= y -> 0 <= g a - g (a + x) - g (a + y) + g (a + x + y).

Definition has0 (X : list R) : bool := existsb (fun x => req x 0) X.
Lemma has0_true X : has0 X = true <-> In 0 X.
Proof.
  unfold has0. rewrite existsb_exists. split.
  - intros (x & I & E). apply req_true in E. subst. auto.
  - intros I. exists 0. split; auto. apply req_refl.
Qed.
Lemma has0_pos X : has0 X = false -> Forall in01 X -> Forall (fun u => 0 < u <= 1) X.
Proof.
  intros H F. rewrite Forall_forall in *. intros x I. destruct (F x I). split; auto. destruct H0; auto. subst.
  apply has0_true in I. congruence.
Qed.
Definition arch (f g : R -> R) (X : list R) : R := if has0 X then 0 else g (sumR (map f X)).

Section G.
Variables (fi : R -> option Rbar) (fi_inv : Rbar -> option Rbar) (f g : R -> R).
Hypothesis H : gen fi fi_inv f g.

Lemma g0 : g 0 = 1.
Proof. rewrite <- (gn_1 _ _ _ _ H). apply (gn_gf _ _ _ _ H). lra. Qed.
Lemma f_mon u v : 0 < u -> u <= v -> v <= 1 -> f v <= f u.
Proof.
  intros. destruct (Rle_dec (f v) (f u)); auto. exfalso.
  assert (g (f v) <= g (f u)) by (apply (gn_mon _ _ _ _ H); [apply (gn_nn _ _ _ _ H)|]; lra).
  rewrite !(gn_gf _ _ _ _ H) in H3 by lra. replace v with u in n by lra. lra.
Qed.
Lemma sum_nn X : Forall (fun u => 0 < u <= 1) X -> 0 <= sumR (map f X).
Proof. induction 1 as [|x X Hx F IH]; simpl; [lra|]. pose proof (gn_nn _ _ _ _ H x Hx). lra. Qed.

Lemma fi_sum_fin X : Forall (fun u => 0 < u <= 1) X -> forall a, fi_sum fi (Finite a) X = Some (Finite (a + sumR (map f X))).
Proof.
  induction 1 as [|x X Hx F IH]; intros a; simpl.
  - f_equal. f_equal. lra.
  - rewrite (gn_fi _ _ _ _ H) by auto. simpl. rewrite IH. do 2 f_equal. lra.
Qed.
Lemma fi_sum_inf X : Forall in01 X -> fi_sum fi p_infty X = Some p_infty.
Proof.
  induction 1 as [|x X Hx F IH]; simpl; auto. destruct (reqP x 0) as [->|N].
  - rewrite (gn_fi0 _ _ _ _ H). simpl. auto.
  - rewrite (gn_fi _ _ _ _ H) by (unfold in01 in Hx; lra). simpl. auto.
Qed.
Lemma fi_sum_zero X : Forall in01 X -> In 0 X -> forall a, fi_sum fi (Finite a) X = Some p_infty.
Proof.
  induction 1 as [|x X Hx F IH]; intros I a; [destruct I|]. simpl. destruct (reqP x 0) as [->|N].
  - rewrite (gn_fi0 _ _ _ _ H). simpl. apply fi_sum_inf; auto.
  - rewrite (gn_fi _ _ _ _ H) by (unfold in01 in Hx; lra). simpl. apply IH. destruct I as [I|I]; auto. congruence.
Qed.
Lemma arch_val d X : length X = d -> Forall in01 X -> archim_ccdf fi fi_inv d X = Ok (Some (Finite (arch f g X))).
Proof.
  intros L F. unfold archim_ccdf. rewrite L, Nat.eqb_refl. unfold arch. destruct (has0 X) eqn:E.
  - apply has0_true in E. rewrite fi_sum_zero by auto. simpl. destruct (bltP p_infty (Finite 0)) as [B|B]; [destruct B|]. rewrite (gn_inv0 _ _ _ _ H). reflexivity.
  - apply has0_pos in E; auto. rewrite fi_sum_fin by auto. simpl. pose proof (sum_nn X E). rewrite Rplus_0_l.
    destruct (bltP (Finite (sumR (map f X))) (Finite 0)) as [B|B]; [simpl in B; lra|]. rewrite (gn_inv _ _ _ _ H); auto.
Qed.
Lemma arch_len d X : length X <> d -> archim_ccdf fi fi_inv d X = Err EAssert.
Proof. intros N. unfold archim_ccdf. apply Nat.eqb_neq in N. rewrite N. reflexivity. Qed.

Lemma arch_01 X : Forall in01 X -> in01 (arch f g X).
Proof.
  intros F. unfold arch, in01. destruct (has0 X) eqn:E; [lra|]. pose proof (gn_g _ _ _ _ H _ (sum_nn X (has0_pos X E F))). lra.
Qed.
Lemma arch_zero X : In 0 X -> arch f g X = 0.
Proof. intros I. unfold arch. apply has0_true in I. rewrite I. reflexivity. Qed.

Lemma sum_ones n : sumR (map f (repeat 1 n)) = 0.
Proof. induction n; simpl; auto. rewrite IHn, (gn_1 _ _ _ _ H). lra. Qed.
Lemma has0_ones n : has0 (repeat 1 n) = false.
Proof. induction n; simpl; auto. rewrite IHn. destruct (reqP 1 0); auto. lra. Qed.
Lemma has0_app X Y : has0 (X ++ Y) = has0 X || has0 Y.
Proof. apply existsb_app. Qed.
Lemma arch_margin n m u : in01 u -> arch f g (repeat 1 n ++ u :: repeat 1 m) = u.
Proof.
  intros U. unfold arch. rewrite has0_app. change (u :: repeat 1 m) with ([u] ++ repeat 1 m). rewrite has0_app, !has0_ones. simpl.
  rewrite !orb_false_r. destruct (reqP u 0); auto.
  rewrite map_app, sumR_app, sum_ones. simpl. rewrite sum_ones. replace (0 + (f u + 0)) with (f u) by ring.
  apply (gn_gf _ _ _ _ H). unfold in01 in U. lra.
Qed.
Lemma arch_mono X Y : Forall in01 X -> Forall in01 Y -> Forall2 Rle X Y -> arch f g X <= arch f g Y.
Proof.
  intros F G L. unfold arch. destruct (has0 X) eqn:E.
  - apply (arch_01 Y G).
  - apply has0_pos in E; auto. assert (has0 Y = false /\ sumR (map f Y) <= sumR (map f X)) as (-> & S).
    { clear -L E G H. induction L; simpl; [split; auto; lra|]. inversion E; inversion G; subst. destruct IHL as (Z & S); auto. rewrite Z.
      unfold in01 in *. destruct (reqP y 0); [lra|]. split; auto. pose proof (f_mon x y). lra. }
    apply (gn_mon _ _ _ _ H); auto. apply sum_nn.
    clear -L E G. induction L; constructor; inversion E; inversion G; subst; unfold in01 in *; auto; lra.
Qed.
Lemma arch_upper X u : Forall in01 X -> In u X -> arch f g X <= u.
Proof.
  intros F I. apply in_split in I as (A & B & ->).
  assert (in01 u) by (rewrite Forall_forall in F; apply F, in_app_iff; simpl; auto).
  apply Rle_trans with (arch f g (repeat 1 (length A) ++ u :: repeat 1 (length B))); [|rewrite arch_margin by auto; lra].
  apply arch_mono; auto.
  - apply Forall_app. split; [|constructor; auto]; apply Forall_forall; intros x Hx; apply repeat_spec in Hx; subst; unfold in01; lra.
  - apply Forall_app in F as (FA & FB). inversion FB; subst. apply Forall2_app; [|constructor; [lra|]].
    + clear -FA. induction FA; simpl; constructor; auto. unfold in01 in *; lra.
    + clear -H4. induction H4; simpl; constructor; auto. unfold in01 in *; lra.
Qed.
Lemma arch_perm X Y : Permutation X Y -> arch f g X = arch f g Y.
Proof.
  intros P. unfold arch. replace (has0 Y) with (has0 X).
  - rewrite (sumR_perm (map f X) (map f Y)); auto. apply Permutation_map. auto.
  - apply eq_true_iff_eq. rewrite !has0_true. split; apply Permutation_in; auto. symmetry; auto.
Qed.
Lemma sum_le X : Forall in01 X -> In 0 X -> sumR X <= INR (length X) - 1.
Proof.
  intros F I. apply in_split in I as (A & B & ->). apply Forall_app in F as (FA & FB). inversion FB; subst.
  rewrite sumR_app, app_length, plus_INR. cbn [length]. rewrite S_INR, sumR_cons.
  assert (forall L, Forall in01 L -> sumR L <= INR (length L)) as K.
  { induction 1; [simpl; lra|]. cbn [length]. rewrite S_INR, sumR_cons. unfold in01 in *. lra. }
  pose proof (K A FA). pose proof (K B H3). lra.
Qed.
Hypothesis CV : convex g.
Lemma arch_lower_pos X : Forall (fun u => 0 < u <= 1) X -> sumR X - (INR (length X) - 1) <= g (sumR (map f X)).
Proof.
  induction 1 as [|x X Hx F IH]; [simpl; rewrite g0; lra|]. cbn [length]. rewrite S_INR. cbn [map]. rewrite !sumR_cons.
  pose proof (CV 0 (f x) (sumR (map f X)) ltac:(lra) (gn_nn _ _ _ _ H _ Hx) (sum_nn X F)) as C.
  rewrite !Rplus_0_l, g0, (gn_gf _ _ _ _ H) in C by auto. lra.
Qed.
Lemma arch_lower X : Forall in01 X -> sumR X - (INR (length X) - 1) <= arch f g X.
Proof.
  intros F. unfold arch. destruct (has0 X) eqn:E.
  - apply has0_true in E. pose proof (sum_le X F E). lra.
  - apply arch_lower_pos, has0_pos; auto.
Qed.
Lemma arch_bounds d : copula_bounds d (arch f g).
Proof.
  unfold copula_bounds. splits.
  - intros X L F I. apply arch_zero; auto.
  - intros n m u _ U. apply arch_margin; auto.
  - intros X Y L F G L2. apply arch_mono; auto.
  - intros X L F. subst d. splits; [apply arch_01; auto|apply arch_lower; auto|intros; apply arch_upper; auto].
  - intros X Y L F P. apply arch_perm; auto.
Qed.
Lemma arch2 u v : 0 < u <= 1 -> 0 < v <= 1 -> arch f g [u; v] = g (f u + f v).
Proof.
  intros U V. unfold arch. simpl. destruct (reqP u 0); [lra|]. destruct (reqP v 0); [lra|]. simpl. f_equal. lra.
Qed.
Lemma arch_copula2 : is_copula2 (fun u v => arch f g [u; v]).
Proof.
  unfold is_copula2. splits.
  - intros u _. split; apply arch_zero; simpl; auto.
  - intros u U. split; [apply (arch_margin 0 1)|apply (arch_margin 1 0)]; auto.
  - intros u1 u2 v1 v2 U1 U2 V1 V2 U V.
    assert (M : forall a b c d, in01 a -> in01 b -> in01 c -> in01 d -> a <= c -> b <= d -> arch f g [a; b] <= arch f g [c; d]).
    { intros. apply arch_mono; auto. }
    destruct (reqP u1 0) as [->|N]; [rewrite (arch_zero [0; v1]), (arch_zero [0; v2]) by (simpl; auto); assert (arch f g [u2; v1] <= arch f g [u2; v2]) by (apply M; auto; lra); lra|].
    destruct (reqP v1 0) as [->|N']; [rewrite (arch_zero [u1; 0]), (arch_zero [u2; 0]) by (simpl; auto); assert (arch f g [u1; v2] <= arch f g [u2; v2]) by (apply M; auto; lra); lra|].
    unfold in01 in *. rewrite !arch2 by lra.
    pose proof (f_mon u1 u2). pose proof (f_mon v1 v2). pose proof (gn_nn _ _ _ _ H u2). pose proof (gn_nn _ _ _ _ H v2).
    pose proof (CV (f u2 + f v2) (f u1 - f u2) (f v1 - f v2)) as C.
    replace (f u2 + f v2 + (f u1 - f u2)) with (f u1 + f v2) in C by ring.
    replace (f u2 + f v2 + (f v1 - f v2)) with (f u2 + f v1) in C by ring.
    replace (f u1 + f v2 + (f v1 - f v2)) with (f u1 + f v1) in C by ring. lra.
Qed.
End G.

(** elimination: fixing the eliminated arguments at 1 *)
Lemma arch_select f g (keep : list bool) X : f 1 = 0 -> length keep = length X ->
  (forall k x, In (k, x) (combine keep X) -> k = false -> x = 1) -> arch f g (select keep X) = arch f g X.
Proof.
  intros F1 L K. unfold arch.
  assert (has0 (select keep X) = has0 X /\ sumR (map f (select keep X)) = sumR (map f X)) as (-> & ->); auto.
  revert X L K. induction keep as [|k keep IH]; intros [|x X] L K; try discriminate; [auto|]. simpl in L.
  destruct (IH X) as (A & B); [lia|intros; eapply K; [right; eauto|auto]|]. simpl. destruct k.
  - cbn [map]. rewrite !sumR_cons, B. unfold has0 in *. simpl. rewrite A. auto.
  - rewrite (K false x) by (simpl; auto). unfold has0 in *. simpl. rewrite A, B, F1. destruct (reqP 1 0); [lra|]. split; auto. unfold sumR. simpl. lra.
Qed.
Lemma select_len {A} (keep : list bool) (X : list A) : length keep = length X -> length (select keep X) = length (filter (fun b => b) keep).
Proof. revert X. induction keep as [|k keep IH]; intros [|x X] L; try discriminate; auto. simpl in *. destruct k; simpl; rewrite IH; auto; lia. Qed.
Lemma select_Forall {A} (P : A -> Prop) (keep : list bool) X : Forall P X -> Forall P (select keep X).
Proof. intros F. revert keep. induction F; intros [|[|] keep]; simpl; auto. Qed.

(** a function with an increasing derivative is convex *)
Lemma convex_deriv (g g' : R -> R) : (forall s, 0 < s -> is_derive g s (g' s)) -> (forall s, 0 <= s -> continuous g s) ->
  (forall s t, 0 < s -> s <= t -> g' s <= g' t) -> convex g.
Proof.
  intros D C M a x y A X Y. destruct (reqP x 0) as [->|NX]; [rewrite !Rplus_0_r; lra|].
  set (h := fun t => g t - g (t + y)).
  destruct (MVT_gen h a (a + x) (fun t => if Rle_dec t 0 then 0 else g' t - g' (t + y))) as (c & Hc & E).
  - intros t T. rewrite Rmin_left in T by lra. destruct (Rle_dec t 0); [lra|]. unfold h.
    apply (is_derive_minus (K := R_AbsRing) (V := R_NormedModule)).
    + apply D; lra.
    + replace (g' (t + y)) with (scal 1 (g' (t + y))) by (unfold scal; simpl; unfold mult; simpl; ring).
      apply (is_derive_comp (K := R_AbsRing) (V := R_NormedModule) g (fun t => t + y)); [apply D; lra|]. auto_derive; auto.
  - intros t T. rewrite Rmin_left in T by lra. apply continuity_pt_filterlim.
    change (continuous h t). apply (continuous_minus (U := R_UniformSpace) (V := R_NormedModule) g (fun t => g (t + y)) t); [apply C; lra|].
    apply (continuous_comp (U := R_UniformSpace) (V := R_UniformSpace) (W := R_UniformSpace) (fun t => t + y) g t); [|apply C; lra].
    apply (continuous_plus (U := R_UniformSpace) (V := R_NormedModule) (fun t => t) (fun _ => y)); [apply continuous_id|apply continuous_const].
  - rewrite Rmin_left, Rmax_right in Hc by lra. unfold h in E. replace (a + x - a) with x in E by ring.
    destruct (Rle_dec c 0); [lra|]. pose proof (M c (c + y)). assert ((g' c - g' (c + y)) * x <= 0) by nra. lra.
Qed.
