(** Textbook distribution functions of the named distributions, part 4. *)
From Coq Require Import Reals Lra List Bool Sorted Arith Lia.
From Coquelicot Require Import Coquelicot.
From Verif Require Import Base Seg Piecewise PiecewiseSpec PiecewiseFacts2 Integral IntegralFacts SegIntSpec CumintFacts CumintFacts2 Std StdSpec StdFacts StdFacts2 StdFacts3 StdFacts4 StdFacts5.
Import List ListNotations.
Open Scope R_scope.

(** trapezoidal *)
Lemma trapz_law eps (a b c d : R) : a <= b -> b <= c -> c <= d -> a < d -> law (trapz_init eps a b c d) a d (trapz_cdf a b c d).
Proof.
  intros AB BC CD AD. unfold trapz_init. destruct (reqP (d + c - (b + a)) 0) as [X|X]; [lra|]. cbv zeta.
  set (u := 2 / (d + c - (b + a))).
  assert (U : 0 < u) by (apply Rdiv_lt_0_compat; lra).
  assert (UE : u * (d + c - (b + a)) = 2) by (unfold u; field; auto).
  set (H := fun x => if Rle_dec x b then u * (x - a) * (x - a) / (2 * (b - a))
    else if Rle_dec x c then u * ((b - a) / 2 + (x - b)) else 1 - u * (d - x) * (d - x) / (2 * (d - c))).
  assert (HB : H b = u * (b - a) / 2).
  { unfold H. destruct (Rle_dec b b); [|lra]. destruct (Req_dec a b) as [->|]; [|field; lra].
    unfold Rminus, Rdiv. rewrite Rplus_opp_r. ring. }
  assert (HC : H c = u * ((b - a) / 2 + (c - b))).
  { destruct (Req_dec b c) as [E|]; [rewrite <- E, HB; field|].
    unfold H. destruct (Rle_dec c b); [lra|]. destruct (Rle_dec c c); lra. }
  assert (HA : H a = 0).
  { unfold H. destruct (Rle_dec a b); [|lra]. unfold Rminus, Rdiv. rewrite Rplus_opp_r. ring. }
  assert (HD : H d = 1).
  { destruct (Req_dec c d) as [E|].
    - rewrite <- E, HC. replace ((b - a) / 2 + (c - b)) with ((d + c - (b + a)) / 2) by (rewrite E; field).
      unfold Rdiv. rewrite <- Rmult_assoc, UE. field.
    - unfold H. destruct (Rle_dec d b); [lra|]. destruct (Rle_dec d c); [lra|]. unfold Rminus, Rdiv. rewrite (Rplus_opp_r d). ring. }
  assert (P1 : a < b -> prim (lin_fun1 a b u) a b (on_ends 0 H 1)).
  { intros L. apply (prim_piece _ (fun x => u * (x - a) * (x - a) / (2 * (b - a)))); auto.
    - intros x _. unfold lin_fun1. auto_derive; auto. field. lra.
    - intros x _. apply der_cont. unfold lin_fun1. auto_derive. auto.
    - cbn [on_ends]. rewrite HA. apply lim_r_cont; [auto_derive; auto|field; lra].
    - cbn [on_ends]. rewrite HB. apply lim_l_cont; [auto_derive; auto|field; lra].
    - intros x (_ & X2). simpl in X2. cbn [on_ends]. unfold H. destruct (Rle_dec x b); [auto|lra]. }
  assert (P2 : b < c -> prim (fun _ => u) b c (on_ends 0 H 1)).
  { intros L. apply (prim_piece _ (fun x => u * ((b - a) / 2 + (x - b)))); auto.
    - intros x _. auto_derive; auto. ring.
    - intros x _. apply der_cont. auto_derive. auto.
    - cbn [on_ends]. rewrite HB. apply lim_r_cont; [auto_derive; auto|field; lra].
    - cbn [on_ends]. rewrite HC. apply lim_l_cont; [auto_derive; auto|field; lra].
    - intros x (X1 & X2). simpl in X1, X2. cbn [on_ends]. unfold H. destruct (Rle_dec x b); [lra|]. destruct (Rle_dec x c); lra. }
  assert (P3 : c < d -> prim (lin_fun2 c d u) c d (on_ends 0 H 1)).
  { intros L. apply (prim_piece _ (fun x => 1 - u * (d - x) * (d - x) / (2 * (d - c)))); auto.
    - intros x _. unfold lin_fun2. auto_derive; auto. field. lra.
    - intros x _. apply der_cont. unfold lin_fun2. auto_derive. auto.
    - cbn [on_ends]. rewrite HC. apply lim_r_cont; [auto_derive; auto|].
      replace (u * (d - c) * (d - c) / (2 * (d - c))) with (u * (d - c) / 2) by (field; lra). lra.
    - cbn [on_ends]. rewrite HD. apply lim_l_cont; [auto_derive; auto|field; lra].
    - intros x (X1 & X2). simpl in X1, X2. cbn [on_ends]. unfold H. destruct (Rle_dec x b); [lra|]. destruct (Rle_dec x c); lra. }
  apply (law_mass_add eps _ a d 1 (on_ends 0 H 1)); auto.
  - destruct (rltP a b); [discriminate|]. destruct (rltP b c); [discriminate|]. destruct (rltP c d); [discriminate|lra].
  - destruct (rltP a b); destruct (rltP b c); destruct (rltP c d); simpl; repeat split; f_equal; lra.
  - apply Forall_app. split; [|apply Forall_app; split].
    + destruct (rltP a b); constructor; auto. one_piece; auto. intros x (X1 & X2). simpl in X1, X2. unfold lin_fun1.
      apply Rlt_le, Rdiv_lt_0_compat; [apply Rmult_lt_0_compat|]; lra.
    + destruct (rltP b c); constructor; auto. one_piece; auto. intros x _. lra.
    + destruct (rltP c d); constructor; auto. one_piece; auto. intros x (X1 & X2). simpl in X1, X2. unfold lin_fun2.
      apply Rlt_le, Rdiv_lt_0_compat; [apply Rmult_lt_0_compat|]; lra.
  - intros x. unfold trapz_cdf, within, clamp. destruct (Rbar_le_dec x a); [simpl; auto|]. destruct (Rbar_le_dec d x); [simpl; auto|]. reflexivity.
Qed.

(** semicircle *)
Lemma lim_plus {T} (F : (T -> Prop) -> Prop) {FF : Filter F} (f g : T -> R) (a b c : R) :
  a + b = c -> filterlim f F (locally a) -> filterlim g F (locally b) -> filterlim (fun x => f x + g x) F (locally c).
Proof. intros <- A B. refine (filterlim_comp_2 _ _ Rplus A B _). apply (filterlim_plus (V := R_NormedModule) a b). Qed.

Lemma cont_r (h : R -> R) (x l : R) : continuous h x -> h x = l -> filterlim h (at_r x) (locally l).
Proof. intros C <-. apply filterlim_at_r_cont; auto. Qed.
Lemma cont_l (h : R -> R) (x l : R) : continuous h x -> h x = l -> filterlim h (at_l x) (locally l).
Proof. intros C <-. apply filterlim_at_l_cont; auto. Qed.

Lemma asin_gt x e : 0 < e < PI / 2 -> x < 1 -> sin (PI / 2 - e) < x -> PI / 2 - e < asin x.
Proof.
  intros E X1 X2. pose proof PI_RGT_0 as P.
  assert (S0 : 0 < sin (PI / 2 - e)) by (apply sin_gt_0; lra).
  assert (X : -1 <= x <= 1) by lra. pose proof (asin_bound x) as B.
  destruct (Rlt_le_dec (PI / 2 - e) (asin x)) as [L|L]; auto. exfalso.
  apply (Rlt_not_le _ _ X2). rewrite <- (sin_asin x) by auto. apply sin_incr_1; lra.
Qed.

Lemma lim_asin_1 : filterlim asin (at_left 1) (locally (PI / 2)).
Proof.
  intros P (e & He). destruct e as (e & Ep). simpl in He. pose proof PI_RGT_0 as HP.
  set (d := Rmin (e / 2) (PI / 4)). assert (D : 0 < d <= PI / 4) by (split; [apply Rmin_pos; lra|apply Rmin_r]).
  assert (D2 : d < e) by (apply (Rle_lt_trans _ (e / 2)); [apply Rmin_l|lra]).
  assert (S1 : 0 < 1 - sin (PI / 2 - d)).
  { assert (sin (PI / 2 - d) < sin (PI / 2)) by (apply sin_increasing_1; lra). rewrite sin_PI2 in H. lra. }
  exists (mkposreal _ S1). intros x B X. apply He.
  unfold ball in B; simpl in B; unfold AbsRing_ball, abs, minus, plus, opp in B; simpl in B. apply Rabs_lt_between in B.
  assert (A : PI / 2 - d < asin x) by (apply asin_gt; lra). pose proof (asin_bound x) as AB.
  unfold ball; simpl; unfold AbsRing_ball, abs, minus, plus, opp; simpl. apply Rabs_lt_between. lra.
Qed.

Lemma lim_asin_m1 : filterlim asin (at_right (-1)) (locally (- (PI / 2))).
Proof.
  intros P (e & He). destruct (lim_asin_1 (fun y => P (- y))) as (d & Hd).
  - exists e. intros y Hy. apply He. unfold ball in *; simpl in *; unfold AbsRing_ball, abs, minus, plus, opp in *; simpl in *.
    replace (- y + - - (PI / 2)) with (- (y + - (PI / 2))) by ring. rewrite Rabs_Ropp. auto.
  - exists d. intros x B X. rewrite <- (Ropp_involutive (asin x)), <- asin_opp. apply Hd; [|lra].
    unfold ball in *; simpl in *; unfold AbsRing_ball, abs, minus, plus, opp in *; simpl in *.
    replace (- x + - (1)) with (- (x + - (-1))) by ring. rewrite Rabs_Ropp. auto.
Qed.

Lemma scale_left (r : R) : 0 < r -> filterlim (fun x => x / r) (at_left r) (at_left 1).
Proof.
  intros S P (e & He). unfold filtermap. simpl in *.
  exists (mkposreal (e * r) (Rmult_lt_0_compat _ _ (cond_pos e) S)). intros y By Hy. simpl in By.
  assert (L : y / r < 1) by (apply Rlt_div_l; lra).
  apply He; auto. unfold ball in *; simpl in *; unfold AbsRing_ball, abs, minus, plus, opp in *; simpl in *.
  rewrite Rabs_left by lra. rewrite Rabs_left in By by lra.
  replace (- (y / r + - (1))) with ((- (y + - r)) / r) by (field; lra). apply Rlt_div_l; lra.
Qed.
Lemma scale_right (r : R) : 0 < r -> filterlim (fun x => x / r) (at_right (- r)) (at_right (-1)).
Proof.
  intros S P (e & He). unfold filtermap. simpl in *.
  exists (mkposreal (e * r) (Rmult_lt_0_compat _ _ (cond_pos e) S)). intros y By Hy. simpl in By.
  assert (L : -1 < y / r) by (apply Rlt_div_r; lra).
  apply He; auto. unfold ball in *; simpl in *; unfold AbsRing_ball, abs, minus, plus, opp in *; simpl in *.
  rewrite Rabs_right by lra. rewrite Rabs_right in By by lra.
  replace (y / r + - (-1)) with ((y + - - r) / r) by (field; lra). apply Rlt_div_l; lra.
Qed.

Lemma semi_facts (r : R) : 0 < r ->
  let H := fun x => / 2 + x * sqrt (r * r - x * x) / (PI * r * r) + asin (x / r) / PI in
  (forall x : R, RbarIn (- r) r x -> 0 <= semi_pdf r x) /\
  (forall x : R, RbarIn (- r) r x -> is_derive H x (semi_pdf r x)) /\
  (forall x : R, RbarIn (- r) r x -> continuous (semi_pdf r) x) /\
  filterlim H (at_r (- r)) (locally 0) /\ filterlim H (at_l r) (locally 1).
Proof.
  intros R0 H. pose proof PI_RGT_0 as HP.
  assert (IN : forall x : R, RbarIn (- r) r x -> - r < x < r /\ 0 < r * r - x * x).
  { intros x (X1 & X2). simpl in X1, X2. split; [lra|nra]. }
  assert (E : forall x : R, RbarIn (- r) r x -> 2 / (PI * r * r) * sqrt (r * r - x * x) = semi_pdf r x).
  { intros x X. destruct (IN x X) as (Y & _). unfold semi_pdf, in_semi. destruct (rleP (- r) x); [|lra]. destruct (rleP x r); [|lra]. reflexivity. }
  assert (EH : forall x : R, RbarIn (- r) r x ->
    / 2 + x * sqrt (r * r - x * x) / (PI * r * r) + atan (x / sqrt (r * r - x * x)) / PI = H x).
  { intros x X. destruct (IN x X) as (Y & Z). unfold H. f_equal. f_equal. rewrite asin_atan.
    - f_equal.
      replace (1 - (x / r)²) with ((r * r - x * x) / (r * r)) by (unfold Rsqr; field; lra).
      rewrite sqrt_div by nra. rewrite (sqrt_square r) by lra. field. pose proof (sqrt_lt_R0 _ Z). splits; lra.
    - split; [apply Rlt_div_r|apply Rlt_div_l]; lra. }
  assert (CT : forall x : R, RbarIn (- r) r x -> continuous (semi_pdf r) x).
  { intros x X. apply (loc_cont _ _ _ _ x X E). apply der_cont. destruct (IN x X). auto_derive. auto. }
  assert (LS : forall x l : R, x * x = r * r -> l = / 2 -> continuous (fun x => / 2 + x * sqrt (r * r - x * x) / (PI * r * r)) x).
  { intros x l X _. apply continuity_pt_filterlim.
    apply (continuity_pt_plus (fun _ => / 2) (fun x => x * sqrt (r * r - x * x) / (PI * r * r))).
    - apply continuity_pt_const. intros ? ?; auto.
    - unfold Rdiv. apply (continuity_pt_mult (fun x => x * sqrt (r * r - x * x)) (fun _ => / (PI * r * r))).
      + apply (continuity_pt_mult (fun x => x) (fun x => sqrt (r * r - x * x))).
        * apply derivable_continuous_pt. apply derivable_pt_id.
        * apply (continuity_pt_comp (fun x => r * r - x * x) sqrt).
          -- apply continuity_pt_filterlim. apply (der_cont (fun x => r * r - x * x)). auto_derive. auto.
          -- apply continuity_pt_sqrt. lra.
      + apply continuity_pt_const. intros ? ?; auto. }
  assert (V : forall x : R, x * x = r * r -> / 2 + x * sqrt (r * r - x * x) / (PI * r * r) = / 2).
  { intros x X. rewrite X. unfold Rminus. rewrite Rplus_opp_r, sqrt_0. unfold Rdiv. ring. }
  splits; auto.
  - intros x X. rewrite <- E by auto. apply Rmult_le_pos; [|apply sqrt_pos]. apply Rlt_le, Rdiv_lt_0_compat; [lra|].
    apply Rmult_lt_0_compat; auto. apply Rmult_lt_0_compat; auto.
  - intros x X. apply (loc_ext _ _ _ _ x _ X EH). rewrite <- E by auto. destruct (IN x X) as (Y & Z).
    pose proof (sqrt_lt_R0 _ Z) as W. assert (SQ : sqrt (r * r - x * x) * sqrt (r * r - x * x) = r * r - x * x) by (apply sqrt_sqrt; lra).
    auto_derive; [unfold Rminus in Z, W; splits; auto; apply Rgt_not_eq; exact W|].
    replace (r * r + - (x * x)) with (r * r - x * x) by ring.
    set (q := sqrt (r * r - x * x)) in *.
    assert (RR : r * r = q * q + x * x) by lra.
    apply (Rmult_eq_reg_r (PI * r * r)); [|apply Rgt_not_eq, Rmult_lt_0_compat; auto; apply Rmult_lt_0_compat; auto].
    unfold Rsqr.
    assert (D2 : q * q + x * x <> 0) by (rewrite <- RR; apply Rgt_not_eq, Rmult_lt_0_compat; auto).
    field_simplify_eq; [|splits; auto; try lra].
    + replace (r ^ 2) with (q * q + x * x) by (rewrite <- RR; ring). ring.
  - simpl. apply (lim_plus (at_right (- r)) (fun x => / 2 + x * sqrt (r * r - x * x) / (PI * r * r)) (fun x => asin (x / r) / PI) (/ 2) (- (PI / 2) / PI)); [field; lra| |].
    + assert (EV : (fun x => / 2 + x * sqrt (r * r - x * x) / (PI * r * r)) (- r) = / 2) by (apply V; ring).
      apply (cont_r _ (- r) (/ 2)); auto. apply (LS (- r) (/ 2)); auto; ring.
    + apply (lim_der (at_right (- r)) (fun y => y / PI) (fun x => asin (x / r)) (- (PI / 2))); [auto_derive; auto|auto|].
      eapply filterlim_comp; [apply scale_right; auto|apply lim_asin_m1].
  - simpl. apply (lim_plus (at_left r) (fun x => / 2 + x * sqrt (r * r - x * x) / (PI * r * r)) (fun x => asin (x / r) / PI) (/ 2) (PI / 2 / PI)); [field; lra| |].
    + assert (EV : (fun x => / 2 + x * sqrt (r * r - x * x) / (PI * r * r)) r = / 2) by (apply V; ring).
      apply (cont_l _ r (/ 2)); auto. apply (LS r (/ 2)); auto; ring.
    + apply (lim_der (at_left r) (fun y => y / PI) (fun x => asin (x / r)) (PI / 2)); [auto_derive; auto|auto|].
      eapply filterlim_comp; [apply scale_left; auto|apply lim_asin_1].
Qed.

Lemma semi_law eps (r : R) : 0 < r -> law (semi_init eps r) (- r) r (semi_cdf r).
Proof.
  intros R0. unfold semi_init. rewrite (proj2 (rlt_true _ _) R0). cbv zeta.
  destruct (semi_facts r R0) as (F1 & F2 & F3 & F4 & F5).
  apply (law_add eps _ (semi_pdf r) (fun x => / 2 + x * sqrt (r * r - x * x) / (PI * r * r) + asin (x / r) / PI)); auto.
  - discriminate.
  - carr; try lra. repeat split; simpl; auto; try lra. intros _ c (C1 & C2). simpl in C1, C2.
    apply (ex_RInt_continuous (V := R_CompleteNormedModule)). intros z Z. rewrite Rmin_left, Rmax_right in Z by lra. apply F3. split; simpl; lra.
  - simpl; auto.
  - simpl; lra.
Qed.
