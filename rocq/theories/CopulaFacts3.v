(** Elementary copulas, closed formulas, densities and joint laws. *)
From Coq Require Import Reals Lra Lia List Bool Arith Permutation.
From Coquelicot Require Import Coquelicot.
From Verif Require Import Base AtomFacts Copula CopulaSpec CopulaFacts CopulaFacts2.
Import List ListNotations.
Open Scope R_scope.

(** every copula lies between the Frechet bounds *)
Lemma frechet C u v : is_copula2 C -> in01 u -> in01 v -> Rmax (u + v - 1) 0 <= C u v <= Rmin u v.
Proof.
  intros (G & M & I) U V. assert (in01 0 /\ in01 1) as (Z & O) by (unfold in01; lra).
  pose proof (I u 1 v 1 U O V O (proj2 U) (proj2 V)) as A. destruct (M u U) as (M1 & _). destruct (M v V) as (_ & M2). destruct (M 1 O) as (M3 & _).
  pose proof (I 0 u 0 v Z U Z V (proj1 U) (proj1 V)) as B. destruct (G u U) as (G1 & G2). destruct (G v V) as (G3 & G4). destruct (G 0 Z) as (G5 & _).
  pose proof (I u 1 0 v U O Z V (proj2 U) (proj1 V)) as D. pose proof (I 0 u v 1 Z U V O (proj1 U) (proj2 V)) as E.
  destruct (G 1 O) as (G6 & G7). unfold in01 in *. split.
  - apply Rmax_lub; lra.
  - apply Rmin_glb; lra.
Qed.
Lemma pi_copula2 : is_copula2 (fun u v => u * v).
Proof.
  unfold is_copula2, in01. splits; intros; [split; ring|split; ring|].
  replace (u2 * v2 - u1 * v2 - u2 * v1 + u1 * v1) with ((u2 - u1) * (v2 - v1)) by ring. apply Rmult_le_pos; lra.
Qed.
Lemma m_copula2 : is_copula2 Rmin.
Proof.
  unfold is_copula2, in01. splits; intros.
  - rewrite Rmin_right, Rmin_left by lra. auto.
  - rewrite Rmin_left, Rmin_right by lra. auto.
  - unfold Rmin. destruct (Rle_dec u2 v2), (Rle_dec u1 v2), (Rle_dec u2 v1), (Rle_dec u1 v1); lra.
Qed.
Lemma w_copula2 : is_copula2 (fun u v => Rmax (u + v - 1) 0).
Proof.
  unfold is_copula2, in01. splits; intros.
  - rewrite !Rmax_right by lra. auto.
  - rewrite !Rmax_left by lra. split; ring.
  - unfold Rmax. destruct (Rle_dec (u2 + v2 - 1) 0), (Rle_dec (u1 + v2 - 1) 0), (Rle_dec (u2 + v1 - 1) 0), (Rle_dec (u1 + v1 - 1) 0); lra.
Qed.

(** arrays *)
Lemma zipR_len f a b : length a = length b -> length (zipR f a b) = length a.
Proof. intros L. unfold zipR. rewrite map_length, combine_length, L. lia. Qed.
Lemma zipR_nth f a b i : length a = length b -> (i < length a)%nat -> nth i (zipR f a b) 0 = f (nth i a 0) (nth i b 0).
Proof.
  unfold zipR. revert b i. induction a as [|x a IH]; intros [|y b] i L I; try discriminate; simpl in *; [lia|].
  destruct i; auto. apply IH; lia.
Qed.
Lemma fold_zip f X : forall n a, length a = n -> Forall (fun x => length x = n) X ->
  length (fold_left (zipR f) X a) = n /\ forall i, (i < n)%nat -> nth i (fold_left (zipR f) X a) 0 = fold_left f (map (fun x => nth i x 0) X) (nth i a 0).
Proof.
  induction X as [|x X IH]; intros n a L F; [simpl; auto|]. inversion F; subst. simpl.
  destruct (IH (length a) (zipR f a x)) as (A & B); auto; [rewrite zipR_len; auto|]. split; auto.
  intros i I. rewrite B by auto. rewrite zipR_nth by auto. reflexivity.
Qed.
Lemma nth_const {A} (c : R) (l : list A) i : (i < length l)%nat -> nth i (map (fun _ => c) l) 0 = c.
Proof. revert i. induction l; intros [|i] I; simpl in *; try lia; auto. apply IHl. lia. Qed.
Lemma fold_mult l a : fold_left Rmult l a = a * prodR l.
Proof. revert a. induction l; intros; simpl; [lra|]. rewrite IHl. unfold prodR. simpl. ring. Qed.
Lemma fold_plus l a : fold_left Rplus l a = a + sumR l.
Proof. revert a. induction l; intros; simpl; [lra|]. rewrite IHl. lra. Qed.
Lemma fold_min l a : a <= 1 -> fold_left (fun m x => if rlt x m then x else m) l a = Rmin a (minR l).
Proof.
  unfold minR. revert a. induction l as [|x l IH]; intros a A; simpl; [rewrite Rmin_left; lra|].
  destruct (rltP x a) as [L|L]; rewrite IH by lra; unfold Rmin; repeat destruct Rle_dec; lra.
Qed.
Lemma fold_min1 l : fold_left (fun m x => if rlt x m then x else m) l 1 = minR l.
Proof.
  rewrite fold_min by lra. unfold minR. apply Rmin_right. induction l as [|x l IH]; simpl; [lra|]. pose proof (Rmin_r x (fold_right Rmin 1 l)). lra.
Qed.
Lemma m_fold X : forall n a, n <> 1%nat -> length a = n -> Forall (fun x => length x = n) X ->
  fold_left (fun mi xi => if Nat.eqb (length mi) 1 then xi else zipR (fun m x => if rlt x m then x else m) mi xi) X a =
  fold_left (zipR (fun m x => if rlt x m then x else m)) X a.
Proof.
  induction X as [|x X IH]; intros n a N L F; auto. inversion F; subst. simpl. rewrite (proj2 (Nat.eqb_neq (length a) 1)) by auto.
  apply (IH (length a)); auto. apply zipR_len. auto.
Qed.

(** closed formulas *)
Lemma has0_open X : Forall (fun u => 0 < u < 1) X -> has0 X = false.
Proof. induction 1 as [|u X U F IH]; auto. unfold has0 in *. simpl. rewrite IH. destruct (reqP u 0); auto. lra. Qed.
Lemma gumbel_closed th X : X <> [] -> Forall (fun u => 0 < u < 1) X -> 0 < th -> arch (gu_f th) (gu_g th) X = gumbel_formula th X.
Proof.
  intros N F TH. unfold arch. rewrite has0_open by auto. unfold gu_g, gumbel_formula.
  assert (E : map (gu_f th) X = map (fun u => Rpower (- ln u) th) X).
  { apply map_ext_in. intros u I. rewrite Forall_forall in F. specialize (F u I). unfold gu_f. apply rp_pos.
    assert (ln u < 0) by (rewrite <- ln_1; apply ln_increasing; lra). lra. }
  rewrite E. rewrite rp_pos; [replace (1 / th) with (/ th) by (field; lra); reflexivity|].
  destruct X as [|u X]; [congruence|]. cbn [map]. rewrite sumR_cons. pose proof (rpower_pos (- ln u) th).
  assert (0 <= sumR (map (fun u => Rpower (- ln u) th) X)); [|lra].
  apply sumR_nonneg. intros x I. apply in_map_iff in I as (w & <- & _). left. apply rpower_pos.
Qed.
Lemma clayton_closed th X : Forall (fun u => 0 < u < 1) X -> 0 < th -> arch (cl_f th) (cl_g th) X = clayton_formula th X.
Proof.
  intros F TH. unfold arch. rewrite has0_open by auto. unfold cl_g, clayton_formula. f_equal; [|field; lra].
  clear F. induction X as [|u X IH]; cbn [map length]; rewrite ?sumR_cons, ?S_INR; [simpl; lra|].
  replace (1 + (cl_f th u + sumR (map (cl_f th) X)) * th) with (1 + sumR (map (cl_f th) X) * th + cl_f th u * th) by ring. rewrite IH.
  unfold cl_f. field. lra.
Qed.
Lemma frank_closed th X : Forall (fun u => 0 < u < 1) X -> th <> 0 -> arch (fr_f th) (fr_g th) X = frank_formula th X.
Proof.
  intros F TH. unfold arch. rewrite has0_open by auto. unfold fr_g, frank_formula. rewrite fr_arg.
  assert (E : exp (- sumR (map (fr_f th) X)) = prodR (map (fun u => (exp (- th * u) - 1) / (exp (- th) - 1)) X)).
  { induction F as [|u X U F IH]; simpl; [rewrite Ropp_0, exp_0; reflexivity|]. unfold sumR in *. simpl. rewrite Ropp_plus_distr, exp_plus, IH. unfold prodR. f_equal.
    unfold fr_f. rewrite Ropp_involutive, exp_ln by (apply fr_ratio; lra). do 3 f_equal. ring. }
  rewrite E. replace (1 - (1 - exp (- th)) * prodR (map (fun u => (exp (- th * u) - 1) / (exp (- th) - 1)) X))
    with (1 + (exp (- th) - 1) * prodR (map (fun u => (exp (- th * u) - 1) / (exp (- th) - 1)) X)) by ring. ring.
Qed.

(** densities: [mixed C u v k] says k is the mixed derivative of C at (u,v) *)
Definition mixed (C : R -> R -> R) (u v k : R) : Prop :=
  exists Cu : R -> R, locally v (fun v' => is_derive (fun u' => C u' v') u (Cu v')) /\ is_derive Cu v k.
Lemma arch_mixed (f f' g g' g'' : R -> R) u v :
  0 < u < 1 -> 0 < v < 1 -> (forall t, 0 < t < 1 -> 0 < f t) ->
  (forall t, 0 < t < 1 -> is_derive f t (f' t)) -> (forall s, 0 < s -> is_derive g s (g' s)) -> (forall s, 0 < s -> is_derive g' s (g'' s)) ->
  mixed (fun u v => g (f u + f v)) u v (g'' (f u + f v) * (f' u * f' v)).
Proof.
  intros U V P Df Dg Dg'. exists (fun v' => f' u * g' (f u + f v')). split.
  - assert (E : 0 < Rmin v (1 - v)) by (apply Rmin_pos; lra). exists (mkposreal _ E). intros y Hy.
    unfold ball in Hy; simpl in Hy; unfold AbsRing_ball, abs, minus, plus, opp in Hy; simpl in Hy.
    pose proof (Rmin_l v (1 - v)). pose proof (Rmin_r v (1 - v)). apply Rabs_def2 in Hy.
    pose proof (P u U). pose proof (P y ltac:(lra)).
    apply (is_derive_comp (K := R_AbsRing) (V := R_NormedModule) g (fun u' => f u' + f y)); [apply Dg; lra|].
    rewrite <- (Rplus_0_r (f' u)). apply (is_derive_plus (K := R_AbsRing) (V := R_NormedModule) f (fun _ => f y)); [apply Df; auto|apply (is_derive_const (K := R_AbsRing) (V := R_NormedModule))].
  - pose proof (P u U). pose proof (P v V).
    replace (g'' (f u + f v) * (f' u * f' v)) with (f' u * (f' v * g'' (f u + f v))) by ring.
    apply (is_derive_scal (fun v' => g' (f u + f v'))).
    apply (is_derive_comp (K := R_AbsRing) (V := R_NormedModule) g' (fun v' => f u + f v')); [apply Dg'; lra|].
    rewrite <- (Rplus_0_l (f' v)). apply (is_derive_plus (K := R_AbsRing) (V := R_NormedModule) (fun _ => f u) f); [apply (is_derive_const (K := R_AbsRing) (V := R_NormedModule))|apply Df; auto].
Qed.
Lemma joint_mixed C c F f G g x y : (forall u v, 0 < u < 1 -> 0 < v < 1 -> mixed C u v (c u v)) ->
  is_derive F x f -> is_derive G y g -> 0 < F x < 1 -> 0 < G y < 1 ->
  mixed (fun x y => C (F x) (G y)) x y (c (F x) (G y) * (f * g)).
Proof.
  intros M DF DG Fx Gy. destruct (M (F x) (G y) Fx Gy) as (Cu & L & D). exists (fun y' => f * Cu (G y')). split.
  - assert (CG : continuous G y) by (apply (ex_derive_continuous (K := R_AbsRing) (V := R_NormedModule)); eexists; eauto).
    apply CG in L. unfold filtermap in L. eapply filter_imp; [|exact L]. intros y' H. simpl in H.
    apply (is_derive_comp (K := R_AbsRing) (V := R_NormedModule) (fun u => C u (G y')) F); auto.
  - replace (c (F x) (G y) * (f * g)) with (f * (g * c (F x) (G y))) by ring.
    apply (is_derive_scal (fun y' => Cu (G y'))).
    apply (is_derive_comp (K := R_AbsRing) (V := R_NormedModule) Cu G); auto.
Qed.

Definition g2_d1 (th s : R) : R := - (exp (- Rpower s (1 / th)) * (1 / th * Rpower s (1 / th - 1))).
Lemma g2_inv_d1 th s : 0 < s -> is_derive (g2_fi_inv th) s (g2_d1 th s).
Proof.
  intros S. pose proof (rpower_der (1 / th) s S) as D. unfold g2_d1, g2_fi_inv.
  replace (- (exp (- Rpower s (1 / th)) * (1 / th * Rpower s (1 / th - 1)))) with (- (1 / th * Rpower s (1 / th - 1)) * exp (- Rpower s (1 / th))) by ring.
  apply (is_derive_comp (K := R_AbsRing) (V := R_NormedModule) exp (fun s => - Rpower s (1 / th))); [apply is_derive_exp|].
  apply (is_derive_opp (K := R_AbsRing) (V := R_NormedModule)). exact D.
Qed.
Lemma g2_inv_d2 th s : th <> 0 -> 0 < s ->
  is_derive (g2_d1 th) s (g2_fi_inv th s * (Rpower s (1 / th - 2) * (- 1 + th + Rpower s (1 / th))) / th ^ 2).
Proof.
  intros TH S. set (al := 1 / th).
  assert (D1 : is_derive (fun s => exp (- Rpower s al)) s (- (al * Rpower s (al - 1)) * exp (- Rpower s al))).
  { apply (is_derive_comp (K := R_AbsRing) (V := R_NormedModule) exp (fun s => - Rpower s al)); [apply is_derive_exp|].
    apply (is_derive_opp (K := R_AbsRing) (V := R_NormedModule)). apply rpower_der; auto. }
  assert (D2 : is_derive (fun s => al * Rpower s (al - 1)) s (al * ((al - 1) * Rpower s (al - 1 - 1)))).
  { apply (is_derive_scal (fun s => Rpower s (al - 1))). apply rpower_der; auto. }
  pose proof (is_derive_mult (fun s => exp (- Rpower s al)) (fun s => al * Rpower s (al - 1)) s _ _ D1 D2 Rmult_comm) as D.
  apply (is_derive_opp (K := R_AbsRing) (V := R_NormedModule)) in D. eapply is_derive_ext; [|unfold g2_d1, g2_fi_inv; fold al].
  { intros t. unfold g2_d1. fold al. reflexivity. }
  match goal with |- is_derive _ _ ?k => match type of D with is_derive _ _ ?m => replace k with m; [exact D|] end end.
  unfold opp, plus, mult; simpl. unfold g2_fi_inv. fold al.
  assert (Q : Rpower s (al - 1) * Rpower s (al - 1) = Rpower s (al - 2) * Rpower s al).
  { rewrite <- !Rpower_plus. f_equal. ring. }
  replace (al - 1 - 1) with (al - 2) by ring.
  assert (T : th = / al) by (unfold al; field; auto). assert (al <> 0) by (unfold al; intros E; unfold Rdiv in E; rewrite Rmult_1_l in E; apply (Rinv_neq_0_compat th TH); auto).
  set (p := Rpower s (al - 1)) in *. set (q := Rpower s al) in *. set (w := Rpower s (al - 2)) in *. set (e := exp (- q)) in *.
  replace (- (- (al * p) * e * (al * p) + e * (al * ((al - 1) * w)))) with (al * al * e * (p * p) + al * e * ((1 - al) * w)) by ring.
  rewrite Q, T. field. auto.
Qed.
Lemma g2_fi_d th t : 0 < t < 1 -> is_derive (g2_fi th) t (- (th * Rpower (- ln t) (th - 1) / t)).
Proof.
  intros T. assert (L : ln t < 0) by (rewrite <- ln_1; apply ln_increasing; lra). unfold g2_fi.
  replace (- (th * Rpower (- ln t) (th - 1) / t)) with (- / t * (th * Rpower (- ln t) (th - 1))) by (field; lra).
  apply (is_derive_comp (K := R_AbsRing) (V := R_NormedModule) (fun x => Rpower x th) (fun t => - ln t)); [apply rpower_der; lra|].
  apply (is_derive_opp (K := R_AbsRing) (V := R_NormedModule)). apply is_derive_ln. lra.
Qed.
Lemma gumbel2d_mixed th u v : 0 < th -> 0 < u < 1 -> 0 < v < 1 -> mixed (fun u v => g2_ccdf th [u; v]) u v (g2_cpdf th [u; v]).
Proof.
  intros TH U V.
  pose proof (arch_mixed (g2_fi th) (fun t => - (th * Rpower (- ln t) (th - 1) / t)) (g2_fi_inv th) (g2_d1 th)
    (fun s => g2_fi_inv th s * (Rpower s (1 / th - 2) * (- 1 + th + Rpower s (1 / th))) / th ^ 2) u v U V (fun t _ => rpower_pos _ _)
    (g2_fi_d th) (g2_inv_d1 th) (fun s S => g2_inv_d2 th s ltac:(lra) S)) as M.
  assert (K : forall t, 0 < t < 1 -> Rpower (g2_fi th t) (1 - 1 / th) = Rpower (- ln t) (th - 1)).
  { intros t T. unfold g2_fi. rewrite Rpower_mult. f_equal. field. lra. }
  assert (E : g2_cpdf th [u; v] = g2_fi_inv th (g2_fi th u + g2_fi th v) * (Rpower (g2_fi th u + g2_fi th v) (1 / th - 2) * (- 1 + th + Rpower (g2_fi th u + g2_fi th v) (1 / th))) / th ^ 2 *
     (- (th * Rpower (- ln u) (th - 1) / u) * - (th * Rpower (- ln v) (th - 1) / v))).
  { unfold g2_cpdf. cbn [fold_left]. rewrite !K by auto. rewrite !Rplus_0_l. field. splits; lra. }
  rewrite E. destruct M as (Cu & L & D). exists Cu. split; auto. eapply filter_imp; [|exact L]. intros v' H.
  eapply is_derive_ext; [|exact H]. intros t. unfold g2_ccdf. cbn [fold_left]. rewrite Rplus_0_l. reflexivity.
Qed.

Lemma frank2d_den th u v : th <> 0 -> 0 < u <= 1 -> 0 < v <= 1 ->
  0 < 1 - (1 - exp (- th * u)) * (1 - exp (- th * v)) / (1 - exp (- th)) /\ 1 - exp (- th) <> 0 /\ 
  (1 - exp (- th)) - (1 - exp (- th * u)) * (1 - exp (- th * v)) <> 0.
Proof.
  intros TH U V.
  assert (E1 : exp (- th) <> 1) by (intros E; rewrite <- exp_0 in E; apply exp_inv in E; lra).
  destruct (fr_ratio th u TH U) as (A & B).
  replace (exp (- u * th)) with (exp (- th * u)) in * by (f_equal; ring).
  set (r := (exp (- th * u) - 1) / (exp (- th) - 1)) in *.
  assert (R : (1 - exp (- th * u)) = r * (1 - exp (- th))) by (unfold r; field; lra).
  pose proof (exp_pos (- th * v)).
  assert (P : 0 < 1 - r * (1 - exp (- th * v))).
  { destruct (Rle_dec 1 (exp (- th * v))); [nra|]. assert (r * (1 - exp (- th * v)) <= 1 - exp (- th * v)) by nra. lra. }
  rewrite R. replace (r * (1 - exp (- th)) * (1 - exp (- th * v)) / (1 - exp (- th))) with (r * (1 - exp (- th * v))) by (field; lra).
  splits; try lra. replace (1 - exp (- th) - r * (1 - exp (- th)) * (1 - exp (- th * v))) with ((1 - exp (- th)) * (1 - r * (1 - exp (- th * v)))) by ring.
  apply Rmult_integral_contrapositive_currified; lra.
Qed.
Lemma f2_ccdf2 th u v : f2_ccdf th [u; v] = - (1 / th) * ln (1 - (1 - exp (- th * u)) * (1 - exp (- th * v)) / (1 - exp (- th))).
Proof. unfold f2_ccdf, f2_eta. cbn [fold_left]. f_equal. f_equal. unfold Rminus, Rdiv. rewrite !Ropp_plus_distr, !Ropp_involutive. rewrite (Rplus_comm (- exp (- th))). ring. Qed.
Lemma frank2d_mixed th u v : th <> 0 -> 0 < u < 1 -> 0 < v < 1 -> mixed (fun u v => f2_ccdf th [u; v]) u v (f2_cpdf th [u; v]).
Proof.
  intros TH U V.
  exists (fun v => exp (- th * u) * (1 - exp (- th * v)) / ((1 - exp (- th)) - (1 - exp (- th * u)) * (1 - exp (- th * v)))). split.
  - assert (E : 0 < Rmin v (1 - v)) by (apply Rmin_pos; lra). exists (mkposreal _ E). intros y Hy.
    unfold ball in Hy; simpl in Hy; unfold AbsRing_ball, abs, minus, plus, opp in Hy; simpl in Hy.
    pose proof (Rmin_l v (1 - v)). pose proof (Rmin_r v (1 - v)). apply Rabs_def2 in Hy.
    destruct (frank2d_den th u y TH) as (A & B & C); try lra.
    eapply is_derive_ext; [intros t; symmetry; apply f2_ccdf2|]. auto_derive; [unfold Rminus, Rdiv in A; auto|].
    set (x := exp (- th * u)) in *. set (w := exp (- th * y)) in *. set (e := exp (- th)) in *. clearbody x w e.
    unfold Rdiv, Rminus in *. field. splits; auto; try lra.
  - destruct (frank2d_den th u v TH) as (A & B & C); try lra. auto_derive; auto.
    unfold f2_cpdf, f2_eta. cbn [fold_left length]. replace (- th * (0 + u + v)) with (- th * u + - th * v) by ring. rewrite exp_plus.
    set (x := exp (- th * u)) in *. set (w := exp (- th * v)) in *. set (e := exp (- th)) in *. clearbody x w e. field.
    intros Z. apply C. lra.
Qed.
