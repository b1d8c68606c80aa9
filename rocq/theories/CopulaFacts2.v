(** The generators of the Gumbel, Clayton and Frank copulas. *)
From Coq Require Import Reals Lra Lia List Bool Arith Permutation.
From Coquelicot Require Import Coquelicot.
From Verif Require Import Base Copula CopulaSpec CopulaFacts.
Import List ListNotations.
Open Scope R_scope.

Lemma exp_le x y : x <= y -> exp x <= exp y.
Proof. intros [L | ->]; [left; apply exp_increasing; auto|lra]. Qed.
Lemma ln_le' x y : 0 < x -> x <= y -> ln x <= ln y.
Proof. intros P [L | ->]; [left; apply ln_increasing; auto|lra]. Qed.
Lemma rpower_pos x a : 0 < Rpower x a.
Proof. apply exp_pos. Qed.
Lemma rpower_dec x y a : a <= 0 -> 0 < x -> x <= y -> Rpower y a <= Rpower x a.
Proof. intros A X L. unfold Rpower. apply exp_le. pose proof (ln_le' x y X L). nra. Qed.
Lemma rpower_inc x y a : 0 <= a -> 0 < x -> x <= y -> Rpower x a <= Rpower y a.
Proof. intros A X L. unfold Rpower. apply exp_le. pose proof (ln_le' x y X L). nra. Qed.
Lemma rpower_der a s : 0 < s -> is_derive (fun s => Rpower s a) s (a * Rpower s (a - 1)).
Proof.
  intros S. unfold Rpower. auto_derive; auto. replace ((a - 1) * ln s) with (a * ln s + - ln s) by ring.
  rewrite exp_plus, exp_Ropp, exp_ln by auto. field. lra.
Qed.

(** powers with positive exponent, continued by 0 *)
Definition rp (x a : R) : R := if rlt 0 x then Rpower x a else 0.
Lemma rp_pos x a : 0 < x -> rp x a = Rpower x a.
Proof. intros X. unfold rp. rewrite (proj2 (rlt_true 0 x)) by auto. reflexivity. Qed.
Lemma rp_0 a : rp 0 a = 0.
Proof. unfold rp. rewrite (proj2 (rlt_false 0 0)) by lra. reflexivity. Qed.
Lemma rp_nn x a : 0 <= rp x a.
Proof. unfold rp. destruct (rlt 0 x); [left; apply rpower_pos|lra]. Qed.
Lemma npow_rp x a : 0 <= x -> 0 < a -> npow (Finite x) a = Some (Finite (rp x a)).
Proof.
  intros X A. unfold npow, rp. destruct (rltP 0 x); auto. destruct (reqP x 0); [|lra]. destruct (rltP 0 a); auto. lra.
Qed.
Lemma rp_inv x a : 0 <= x -> 0 < a -> rp (rp x a) (1 / a) = x.
Proof.
  intros X A. unfold rp at 2. destruct (rltP 0 x) as [P|P].
  - rewrite rp_pos by apply rpower_pos. rewrite Rpower_mult. replace (a * (1 / a)) with 1 by (field; lra). apply Rpower_1. auto.
  - rewrite rp_0. lra.
Qed.
Lemma rp_inc x y a : 0 <= a -> 0 <= x -> x <= y -> rp x a <= rp y a.
Proof.
  intros A X L. destruct (reqP x 0) as [->|N]; [rewrite rp_0; apply rp_nn|]. rewrite !rp_pos by lra. apply rpower_inc; lra.
Qed.
Lemma rp_cont a s : 0 < a -> 0 <= s -> continuous (fun s => rp s a) s.
Proof.
  intros A [S | <-].
  - apply (continuous_ext_loc (fun s => rp s a) (fun s => Rpower s a) s).
    + exists (mkposreal s S). intros y Hy. unfold ball in Hy; simpl in Hy; unfold AbsRing_ball, abs, minus, plus, opp in Hy; simpl in Hy.
      apply Rabs_def2 in Hy. rewrite rp_pos; auto. lra.
    + apply (ex_derive_continuous (K := R_AbsRing) (V := R_NormedModule)). exists (a * Rpower s (a - 1)). apply rpower_der; auto.
  - intros P [eps HP]. rewrite rp_0 in HP. exists (mkposreal (Rpower eps (1 / a)) (rpower_pos _ _)). intros y Hy. apply HP.
    unfold ball in *; simpl in *; unfold AbsRing_ball, abs, minus, plus, opp in *; simpl in *. rewrite Ropp_0, Rplus_0_r in *.
    apply Rabs_def2 in Hy. unfold rp. destruct (rltP 0 y) as [Y|Y].
    + rewrite Rabs_right by (left; apply rpower_pos).
      replace (pos eps) with (Rpower (Rpower eps (1 / a)) a).
      * unfold Rpower at 1 2. apply exp_increasing, Rmult_lt_compat_l; auto. apply ln_increasing; auto. lra.
      * rewrite Rpower_mult. replace (1 / a * a) with 1 by (field; lra). apply Rpower_1. destruct eps; auto.
    + rewrite Rabs_R0. destruct eps; auto.
Qed.

(** Gumbel *)
Definition gu_f (th t : R) : R := rp (- ln t) th.
Definition gu_g (th s : R) : R := exp (- rp s (1 / th)).
Lemma ln_le0 t : 0 < t <= 1 -> ln t <= 0.
Proof. intros T. rewrite <- ln_1. apply ln_le'; lra. Qed.
Lemma gumbel_gen th : 0 < th -> gen (gumbel_fi th) (gumbel_fi_inv th) (gu_f th) (gu_g th).
Proof.
  intros TH. assert (IT : 0 < 1 / th) by (apply Rdiv_lt_0_compat; lra). constructor.
  - intros t T. unfold gumbel_fi, nlog, obind. destruct (rltP 0 t); [|lra]. simpl. pose proof (ln_le0 t T).
    change (npow (Finite (- ln t)) th = Some (Finite (gu_f th t))). rewrite npow_rp by lra. reflexivity.
  - unfold gumbel_fi, nlog, obind. destruct (rltP 0 0); [lra|]. destruct (reqP 0 0); [|lra]. simpl. destruct (rltP 0 th); auto; lra.
  - intros s S. unfold gumbel_fi_inv. rewrite npow_rp by lra. reflexivity.
  - unfold gumbel_fi_inv, npow. destruct (rltP 0 (1 / th)); [|lra]. reflexivity.
  - unfold gu_f. rewrite ln_1, Ropp_0, rp_0. reflexivity.
  - intros t T. apply rp_nn.
  - intros t T. unfold gu_g, gu_f. pose proof (ln_le0 t T). rewrite rp_inv, Ropp_involutive by lra. apply exp_ln. lra.
  - intros s S. unfold gu_g. split; [apply exp_pos|]. apply Rle_trans with (exp 0); [apply exp_le; pose proof (rp_nn s (1 / th)); lra|rewrite exp_0; lra].
  - intros s S. unfold gu_f, gu_g. rewrite ln_exp, Ropp_involutive. replace th with (1 / (1 / th)) at 2 by (field; lra). apply rp_inv; auto.
  - intros s t S ST. unfold gu_g. apply exp_le. pose proof (rp_inc s t (1 / th)). lra.
Qed.
Lemma gumbel_convex th : 1 <= th -> convex (gu_g th).
Proof.
  intros TH. set (al := 1 / th). assert (A : 0 < al <= 1).
  { unfold al. split; [apply Rdiv_lt_0_compat; lra|]. apply Rmult_le_reg_r with th; [lra|]. replace (1 / th * th) with 1 by (field; lra). lra. }
  apply (convex_deriv _ (fun s => - (exp (- Rpower s al) * (al * Rpower s (al - 1))))).
  - intros s S. apply (is_derive_ext_loc (fun s => exp (- Rpower s al))).
    + exists (mkposreal s S). intros y Hy. unfold gu_g. fold al. rewrite rp_pos; auto.
      unfold ball in Hy; simpl in Hy; unfold AbsRing_ball, abs, minus, plus, opp in Hy; simpl in Hy. apply Rabs_def2 in Hy. lra.
    + pose proof (rpower_der al s S) as D.
      replace (- (exp (- Rpower s al) * (al * Rpower s (al - 1)))) with (- (al * Rpower s (al - 1)) * exp (- Rpower s al)) by ring.
      apply (is_derive_comp (K := R_AbsRing) (V := R_NormedModule) exp (fun s => - Rpower s al)); [apply is_derive_exp|].
      apply (is_derive_opp (K := R_AbsRing) (V := R_NormedModule)). exact D.
  - intros s S. unfold gu_g. fold al.
    apply (continuous_comp (U := R_UniformSpace) (V := R_UniformSpace) (W := R_UniformSpace) (fun s => - rp s al) exp).
    + apply (continuous_opp (V := R_NormedModule)). apply rp_cont; lra.
    + apply continuous_exp.
  - intros s t S ST. apply Ropp_le_contravar.
    apply Rmult_le_compat; [left; apply exp_pos|left; apply Rmult_lt_0_compat; [lra|apply rpower_pos]| |].
    + apply exp_le. pose proof (rpower_inc s t al). lra.
    + apply Rmult_le_compat_l; [lra|]. apply rpower_dec; lra.
Qed.

(** Clayton *)
Definition cl_f (th t : R) : R := 1 / th * (Rpower t (- th) - 1).
Definition cl_g (th s : R) : R := Rpower (1 + s * th) (- 1 / th).
Lemma rpow_1l a : Rpower 1 a = 1.
Proof. unfold Rpower. rewrite ln_1, Rmult_0_r. apply exp_0. Qed.
Lemma clayton_gen th : 0 < th -> gen (clayton_fi th) (clayton_fi_inv th) (cl_f th) (cl_g th).
Proof.
  intros TH. assert (IT : 0 < 1 / th) by (apply Rdiv_lt_0_compat; lra).
  assert (IT' : - 1 / th < 0) by (unfold Rdiv in *; lra).
  assert (P1 : forall t, 0 < t <= 1 -> 1 <= Rpower t (- th)).
  { intros t T. rewrite <- (rpow_1l (- th)). apply rpower_dec; lra. }
  constructor.
  - intros t T. unfold clayton_fi, npow. destruct (rltP 0 t); [|lra]. reflexivity.
  - unfold clayton_fi, npow. destruct (rltP 0 0); [lra|]. destruct (reqP 0 0); [|lra]. destruct (rltP 0 (- th)); [lra|].
    destruct (reqP (- th) 0); [lra|]. cbn [omap]. f_equal. unfold Rbar_minus. cbn [Rbar_plus Rbar_plus' Rbar_opp].
    unfold Rbar_mult, Rbar_mult'. destruct (Rle_dec 0 (1 / th)) as [L|L]; [|lra]. destruct (Rle_lt_or_eq_dec 0 (1 / th) L); auto. lra.
  - intros s S. unfold clayton_fi_inv. cbn [Rbar_mult Rbar_mult' Rbar_plus Rbar_plus']. unfold npow, cl_g.
    destruct (rltP 0 (1 + s * th)); auto. nra.
  - unfold clayton_fi_inv. unfold Rbar_mult, Rbar_mult'. destruct (Rle_dec 0 th) as [L|L]; [|lra].
    destruct (Rle_lt_or_eq_dec 0 th L); [|lra]. cbn [Rbar_plus Rbar_plus']. unfold npow. destruct (rltP 0 (- 1 / th)); [lra|].
    destruct (reqP (- 1 / th) 0); auto; lra.
  - unfold cl_f. rewrite rpow_1l. lra.
  - intros t T. unfold cl_f. specialize (P1 t T). apply Rmult_le_pos; lra.
  - intros t T. unfold cl_g, cl_f. replace (1 + 1 / th * (Rpower t (- th) - 1) * th) with (Rpower t (- th)) by (field; lra).
    rewrite Rpower_mult. replace (- th * (- 1 / th)) with 1 by (field; lra). apply Rpower_1; lra.
  - intros s S. unfold cl_g. split; [apply rpower_pos|]. apply Rle_trans with (Rpower 1 (- 1 / th)); [apply rpower_dec; nra|rewrite rpow_1l; lra].
  - intros s S. unfold cl_f, cl_g. rewrite Rpower_mult. replace (- 1 / th * - th) with 1 by (field; lra). rewrite Rpower_1 by nra. field. lra.
  - intros s t S ST. unfold cl_g. apply rpower_dec; nra.
Qed.
Lemma clayton_convex th : 0 < th -> convex (cl_g th).
Proof.
  intros TH. assert (IT' : - 1 / th < 0) by (pose proof (Rdiv_lt_0_compat 1 th); unfold Rdiv in *; lra).
  assert (D : forall s, 0 <= s -> is_derive (cl_g th) s (- Rpower (1 + s * th) (- 1 / th - 1))).
  { intros s S. unfold cl_g.
    replace (- Rpower (1 + s * th) (- 1 / th - 1)) with (th * (- 1 / th * Rpower (1 + s * th) (- 1 / th - 1))) by (field; lra).
    apply (is_derive_comp (K := R_AbsRing) (V := R_NormedModule) (fun u => Rpower u (- 1 / th)) (fun s => 1 + s * th)).
    - apply rpower_der. nra.
    - auto_derive; auto. ring. }
  apply (convex_deriv _ (fun s => - Rpower (1 + s * th) (- 1 / th - 1))).
  - intros s S. apply D. lra.
  - intros s S. apply (ex_derive_continuous (K := R_AbsRing) (V := R_NormedModule)). eexists. apply D; auto.
  - intros s t S ST. apply Ropp_le_contravar, rpower_dec; nra.
Qed.

(** Frank *)
Definition fr_f (th t : R) : R := - ln ((exp (- t * th) - 1) / (exp (- th) - 1)).
Definition fr_g (th s : R) : R := - ln (exp (- s - th) - exp (- s) + 1) * / th.
Lemma fr_ratio th t : th <> 0 -> 0 < t <= 1 -> 0 < (exp (- t * th) - 1) / (exp (- th) - 1) <= 1.
Proof.
  intros TH T. destruct (Rlt_dec 0 th) as [P|P].
  - assert (exp (- th) < 1) by (rewrite <- exp_0; apply exp_increasing; lra).
    assert (exp (- t * th) < 1) by (rewrite <- exp_0; apply exp_increasing; nra).
    assert (exp (- th) <= exp (- t * th)) by (apply exp_le; nra).
    replace ((exp (- t * th) - 1) / (exp (- th) - 1)) with ((1 - exp (- t * th)) / (1 - exp (- th))) by (field; lra).
    split; [apply Rdiv_lt_0_compat; lra|]. apply Rmult_le_reg_r with (1 - exp (- th)); [lra|].
    replace ((1 - exp (- t * th)) / (1 - exp (- th)) * (1 - exp (- th))) with (1 - exp (- t * th)) by (field; lra). lra.
  - assert (1 < exp (- th)) by (rewrite <- exp_0; apply exp_increasing; lra).
    assert (1 < exp (- t * th)) by (rewrite <- exp_0; apply exp_increasing; nra).
    assert (exp (- t * th) <= exp (- th)) by (apply exp_le; nra).
    split; [apply Rdiv_lt_0_compat; lra|]. apply Rmult_le_reg_r with (exp (- th) - 1); [lra|].
    replace ((exp (- t * th) - 1) / (exp (- th) - 1) * (exp (- th) - 1)) with (exp (- t * th) - 1) by (field; lra). lra.
Qed.
Lemma fr_arg th s : exp (- s - th) - exp (- s) + 1 = 1 - (1 - exp (- th)) * exp (- s).
Proof. replace (- s - th) with (- s + - th) by ring. rewrite exp_plus. ring. Qed.
Lemma fr_arg_pos th s : 0 <= s -> 0 < 1 - (1 - exp (- th)) * exp (- s).
Proof.
  intros S. pose proof (exp_pos (- th)). pose proof (exp_pos (- s)). assert (exp (- s) <= 1) by (rewrite <- exp_0; apply exp_le; lra). nra.
Qed.
Lemma frank_gen th : th <> 0 -> gen (frank_fi th) (frank_fi_inv th) (fr_f th) (fr_g th).
Proof.
  intros TH.
  assert (E1 : exp (- th) <> 1) by (intros E; rewrite <- exp_0 in E; apply exp_inv in E; lra).
  assert (M : forall s t, 0 <= s -> s <= t -> fr_g th t <= fr_g th s).
  { intros s t S ST. unfold fr_g. rewrite !fr_arg. assert (X : exp (- t) <= exp (- s)) by (apply exp_le; lra).
    pose proof (fr_arg_pos th s S). pose proof (fr_arg_pos th t ltac:(lra)).
    destruct (Rlt_dec 0 th) as [P|P].
    - assert (exp (- th) < 1) by (rewrite <- exp_0; apply exp_increasing; lra). pose proof (Rinv_0_lt_compat th P).
      apply Rmult_le_compat_r; [lra|]. apply Ropp_le_contravar, ln_le'; auto. nra.
    - assert (1 < exp (- th)) by (rewrite <- exp_0; apply exp_increasing; lra). pose proof (Rinv_lt_0_compat th ltac:(lra)).
      assert (ln (1 - (1 - exp (- th)) * exp (- t)) <= ln (1 - (1 - exp (- th)) * exp (- s))) by (apply ln_le'; auto; nra). nra. }
  constructor.
  - intros t T. destruct (fr_ratio th t TH T) as (A & B). unfold frank_fi, nlog. destruct (rltP 0 ((exp (- t * th) - 1) / (exp (- th) - 1))); [|lra]. reflexivity.
  - unfold frank_fi. replace (- 0 * th) with 0 by ring. rewrite exp_0. replace ((1 - 1) / (exp (- th) - 1)) with 0 by (field; lra).
    unfold nlog. destruct (rltP 0 0); [lra|]. destruct (reqP 0 0); [|lra]. reflexivity.
  - intros s S. unfold frank_fi_inv, nlog. destruct (rltP 0 (exp (- s - th) - exp (- s) + 1)) as [P|P]; [reflexivity|].
    rewrite fr_arg in P. pose proof (fr_arg_pos th s S). lra.
  - unfold frank_fi_inv, nlog. destruct (rltP 0 (0 - 0 + 1)) as [P|P]; [|lra]. replace (0 - 0 + 1) with 1 by ring. rewrite ln_1. cbn. do 2 f_equal. ring.
  - unfold fr_f. replace (- (1) * th) with (- th) by ring. replace ((exp (- th) - 1) / (exp (- th) - 1)) with 1 by (field; lra). rewrite ln_1. ring.
  - intros t T. unfold fr_f. destruct (fr_ratio th t TH T) as (A & B). pose proof (ln_le0 _ (conj A B)). lra.
  - intros t T. unfold fr_g, fr_f. rewrite fr_arg. rewrite Ropp_involutive. destruct (fr_ratio th t TH T) as (A & B). rewrite exp_ln by auto.
    replace (1 - (1 - exp (- th)) * ((exp (- t * th) - 1) / (exp (- th) - 1))) with (exp (- t * th)) by (field; lra). rewrite ln_exp. field. auto.
  - intros s S.
    assert (G0 : fr_g th 0 = 1). { unfold fr_g. rewrite fr_arg, Ropp_0, exp_0. replace (1 - (1 - exp (- th)) * 1) with (exp (- th)) by ring. rewrite ln_exp. field. auto. }
    split; [|rewrite <- G0; apply M; lra].
    unfold fr_g. rewrite fr_arg. pose proof (exp_pos (- s)). pose proof (fr_arg_pos th s S).
    destruct (Rlt_dec 0 th) as [P|P].
    + assert (exp (- th) < 1) by (rewrite <- exp_0; apply exp_increasing; lra). pose proof (Rinv_0_lt_compat th P).
      assert (ln (1 - (1 - exp (- th)) * exp (- s)) < 0) by (rewrite <- ln_1; apply ln_increasing; auto; nra). nra.
    + assert (1 < exp (- th)) by (rewrite <- exp_0; apply exp_increasing; lra). pose proof (Rinv_lt_0_compat th ltac:(lra)).
      assert (0 < ln (1 - (1 - exp (- th)) * exp (- s))) by (rewrite <- ln_1; apply ln_increasing; nra). nra.
  - intros s S. unfold fr_f, fr_g. rewrite fr_arg. pose proof (fr_arg_pos th s S).
    replace (- (- ln (1 - (1 - exp (- th)) * exp (- s)) * / th) * th) with (ln (1 - (1 - exp (- th)) * exp (- s))) by (field; auto).
    rewrite exp_ln by auto. replace ((1 - (1 - exp (- th)) * exp (- s) - 1) / (exp (- th) - 1)) with (exp (- s)) by (field; lra). rewrite ln_exp. ring.
  - auto.
Qed.
Lemma frank_convex th : th <> 0 -> convex (fr_g th).
Proof.
  intros TH.
  assert (D : forall s, 0 <= s -> is_derive (fr_g th) s (- ((1 - exp (- th)) / th) / (exp s - (1 - exp (- th))))).
  { intros s S. pose proof (fr_arg_pos th s S) as A. apply (is_derive_ext (fun s => - ln (1 - (1 - exp (- th)) * exp (- s)) * / th)).
    { intros t. unfold fr_g. rewrite fr_arg. reflexivity. }
    auto_derive; [unfold Rminus in A; auto|]. rewrite (exp_Ropp s) in *. pose proof (exp_pos s). set (x := exp (- th)) in *. set (e := exp s) in *.
    clearbody x e. assert (e - (1 - x) <> 0).
    { replace (e - (1 - x)) with (e * (1 - (1 - x) * / e)) by (field; lra). nra. }
    assert (1 + - ((1 - x) * / e) <> 0) by (unfold Rminus in *; lra). field. splits; try lra; auto. }
  pose proof (exp_pos (- th)).
  assert (K : 0 < (1 - exp (- th)) / th).
  { destruct (Rlt_dec 0 th) as [P|P].
    - assert (exp (- th) < 1) by (rewrite <- exp_0; apply exp_increasing; lra). apply Rdiv_lt_0_compat; lra.
    - assert (1 < exp (- th)) by (rewrite <- exp_0; apply exp_increasing; lra).
      replace ((1 - exp (- th)) / th) with ((exp (- th) - 1) / (- th)) by (field; lra). apply Rdiv_lt_0_compat; lra. }
  apply (convex_deriv _ (fun s => - ((1 - exp (- th)) / th) / (exp s - (1 - exp (- th))))).
  - intros s S. apply D. lra.
  - intros s S. apply (ex_derive_continuous (K := R_AbsRing) (V := R_NormedModule)). eexists. apply D; auto.
  - intros s t S ST. assert (1 <= exp s) by (rewrite <- exp_0; apply exp_le; lra). assert (exp s <= exp t) by (apply exp_le; lra).
    unfold Rdiv. rewrite !Ropp_mult_distr_l_reverse. apply Ropp_le_contravar, Rmult_le_compat_l; [unfold Rdiv in K; lra|].
    apply Rinv_le_contravar; lra.
Qed.
