(** Chebyshev nodes: nesting, and the weights the code uses for them. *)
From Coq Require Import Reals Lra Lia List Bool Arith Sorted.
From Coquelicot Require Import Coquelicot.
From Verif Require Import Base Conv Interp InterpSpec PolyFacts InterpFacts.
Import List ListNotations.
Open Scope R_scope.

(** ** slices *)
Lemma upd_length i g l : length (upd i g l) = length l.
Proof. revert i. induction l; intros [|i]; simpl; auto. Qed.
Lemma upd_nth i g l j : (j < length l)%nat -> nth j (upd i g l) 0 = if Nat.eqb j i then g (nth j l 0) else nth j l 0.
Proof.
  revert i j. induction l; intros i j J; simpl in J; [lia|]. destruct i, j; simpl; auto. rewrite IHl by lia. auto.
Qed.
Lemma list_ind2 {A} (P : list A -> Prop) : P [] -> (forall x, P [x]) -> (forall x y l, P l -> P (x :: y :: l)) -> forall l, P l.
Proof. intros H0 H1 H2. fix IH 1. intros [|x [|y l]]; [exact H0|exact (H1 x)|exact (H2 x y l (IH l))]. Qed.
Lemma set_even_length v l : length (set_even v l) = length l.
Proof. induction l using list_ind2; simpl; auto. Qed.
Lemma set_even_nth v l j : (j < length l)%nat -> nth j (set_even v l) 0 = if Nat.even j then v else nth j l 0.
Proof.
  revert j. induction l using list_ind2; intros j J; simpl in J; [lia| |].
  - destruct j; simpl; auto. lia.
  - destruct j as [|[|j]]; simpl; auto. apply IHl. lia.
Qed.
Lemma set_odd_nth v l j : (j < length l)%nat -> nth j (set_odd v l) 0 = if Nat.odd j then v else nth j l 0.
Proof.
  destruct l as [|x l]; simpl; intros J; [lia|]. destruct j; auto. rewrite set_even_nth by lia. rewrite <- Nat.negb_even, Nat.even_succ, <- Nat.negb_even. destruct (Nat.even j); auto.
Qed.
Lemma set_odd_length v l : length (set_odd v l) = length l.
Proof. destruct l; simpl; auto. rewrite set_even_length. auto. Qed.
Lemma mul_lists_nth l m j : (j < length l)%nat -> length m = length l -> nth j (mul_lists l m) 0 = nth j l 0 * nth j m 0.
Proof.
  revert m j. induction l; intros [|y m] j J L; simpl in *; try lia. destruct j; auto. apply IHl; lia.
Qed.
Lemma mul_lists_length l m : length m = length l -> length (mul_lists l m) = length l.
Proof. revert m. induction l; intros [|y m] L; simpl in *; auto; lia. Qed.
Lemma neg_odd_nth l j : (j < length l)%nat -> nth j (neg_odd l) 0 = if Nat.odd j then -1 * nth j l 0 else nth j l 0.
Proof.
  revert j. induction l using list_ind2; intros j J; simpl in J; [lia| |].
  - destruct j; simpl; auto. lia.
  - destruct j as [|[|j]]; try (simpl; auto; fail). change (Nat.odd (S (S j))) with (Nat.odd j). cbn [neg_odd nth]. apply IHl. lia.
Qed.
Lemma neg_odd_length l : length (neg_odd l) = length l.
Proof. induction l using list_ind2; simpl; auto. Qed.
Lemma ones_nth n j : (j < n)%nat -> nth j (ones n) 0 = 1.
Proof. apply nth_repeat_lt. Qed.
Lemma ones_length n : length (ones n) = n.
Proof. apply repeat_length. Qed.
Definition sgn (i : nat) : R := if Nat.even i then 1 else -1.
Lemma sgn_S i : sgn (S i) = - sgn i.
Proof. unfold sgn. rewrite Nat.even_succ, <- Nat.negb_even. destruct (Nat.even i); simpl; ring. Qed.
Lemma sgn_ne i : sgn i <> 0.
Proof. unfold sgn. destruct (Nat.even i); lra. Qed.
Lemma sgn_sq i : sgn i * sgn i = 1.
Proof. unfold sgn. destruct (Nat.even i); ring. Qed.
Lemma sgn_add i j : sgn (i + j) = sgn i * sgn j.
Proof. induction i; simpl; [unfold sgn; simpl; ring|]. rewrite !sgn_S, IHi. ring. Qed.
Lemma cos_npi n : cos (INR n * PI) = sgn n.
Proof.
  induction n; [simpl; rewrite Rmult_0_l, cos_0; reflexivity|]. rewrite S_INR, sgn_S, <- IHn. replace ((INR n + 1) * PI) with (INR n * PI + PI) by ring. apply neg_cos.
Qed.
Lemma sin_npi n : sin (INR n * PI) = 0.
Proof.
  induction n; [simpl; rewrite Rmult_0_l; apply sin_0|]. rewrite S_INR. replace ((INR n + 1) * PI) with (INR n * PI + PI) by ring. rewrite neg_sin, IHn. ring.
Qed.

(** ** Derivative at a root *)
Lemma poly_derive n f x : poly_lt n f -> ex_derive f x.
Proof.
  revert f. induction n; intros f F.
  - destruct F as (cs & H & K). destruct cs; try discriminate. eapply ex_derive_ext; [intros t; symmetry; apply K|]. simpl. apply @ex_derive_const.
  - apply poly_lt_inv in F as (c & g & G & E). eapply ex_derive_ext; [intros t; symmetry; apply E|].
    apply @ex_derive_plus; [apply @ex_derive_const|]. apply ex_derive_mult; [apply @ex_derive_id|apply IHn; auto].
Qed.
Lemma root_derive n f g r : poly_lt n g -> (forall x, f x = (x - r) * g x) -> is_derive f r (g r).
Proof.
  intros G E. eapply is_derive_ext; [intros t; symmetry; apply E|]. destruct (poly_derive n g r G) as (d & D).
  replace (g r) with (1 * g r + (r - r) * d) by ring. apply (is_derive_mult (fun x => x - r) g r 1 d); auto; [|apply Rmult_comm].
  auto_derive; auto.
Qed.
(** the derivative of a polynomial with all the nodes as roots gives the products over the other nodes *)
Lemma nodal_derive l f : poly_lt (S (length l)) f -> NoDup l -> (forall r, In r l -> f r = 0) ->
  exists c, (forall i, (i < length l)%nat -> is_derive f (nth i l 0) (c * nodal (others i l) (nth i l 0))).
Proof.
  intros F ND HR. destruct (poly_full l f F ND HR) as (c & E). exists c. intros i I.
  apply (root_derive (S (length (others i l))) f (fun x => c * nodal (others i l) x)).
  - apply poly_lt_scal, poly_lt_nodal.
  - intros x. rewrite E, (nodal_others i l x I). ring.
Qed.
Lemma weights_from_derive l f (D : nat -> R) Ws k : poly_lt (S (length l)) f -> NoDup l -> (forall r, In r l -> f r = 0) -> l <> [] -> k <> 0 ->
  (forall i, (i < length l)%nat -> D i <> 0 /\ is_derive f (nth i l 0) (D i)) -> length Ws = length l ->
  (forall i, (i < length l)%nat -> nth i Ws 0 = k / D i) -> prop_weights l Ws.
Proof.
  intros F ND HR NE K HD LW HW. destruct (nodal_derive l f F ND HR) as (c & HC).
  assert (E : forall i, (i < length l)%nat -> D i = c * nodal (others i l) (nth i l 0)).
  { intros i I. destruct (HD i I) as (_ & H). pose proof (HC i I) as H'. apply is_derive_unique in H. apply is_derive_unique in H'. lra. }
  assert (C : c <> 0). { intros ->. destruct l; [tauto|]. destruct (HD 0%nat) as (H & _); [simpl; lia|]. apply H. rewrite E by (simpl; lia). ring. }
  split; auto. exists (k / c). split; [apply Rmult_integral_contrapositive_currified; auto using Rinv_neq_0_compat|].
  intros i I. rewrite HW by auto. rewrite E by auto. destruct (HD i I) as (H & _). rewrite E in H by auto. field. split; auto. intros Z. apply H. rewrite Z. ring.
Qed.

(** ** Chebyshev polynomials *)
Fixpoint chebU (k : nat) (x : R) : R :=
  match k with O => 1 | S j => match j with O => 2 * x | S i => 2 * x * chebU j x - chebU i x end end.
Fixpoint chebT (k : nat) (x : R) : R :=
  match k with O => 1 | S j => match j with O => x | S i => 2 * x * chebT j x - chebT i x end end.
Lemma chebU_SS k x : chebU (S (S k)) x = 2 * x * chebU (S k) x - chebU k x.
Proof. reflexivity. Qed.
Lemma chebT_SS k x : chebT (S (S k)) x = 2 * x * chebT (S k) x - chebT k x.
Proof. reflexivity. Qed.
Lemma nat_ind2 (P : nat -> Prop) : P 0%nat -> P 1%nat -> (forall k, P k -> P (S k) -> P (S (S k))) -> forall k, P k.
Proof. intros H0 H1 H2 k. assert (P k /\ P (S k)) by (induction k; split; try tauto; apply H2; tauto). tauto. Qed.
Lemma chebU_poly k : poly_lt (S k) (chebU k).
Proof.
  induction k using nat_ind2.
  - apply poly_lt_const.
  - eapply poly_lt_ext; [|apply (poly_lt_lin 1 (fun _ => 1) 2 0), poly_lt_const]. intros x. simpl. ring.
  - eapply poly_lt_ext; [intros x; symmetry; apply chebU_SS|].
    eapply poly_lt_ext; [|apply (poly_lt_plus _ _ _ (poly_lt_lin _ _ 2 0 IHk0) (poly_lt_scal _ (-1) _ (poly_lt_S _ _ (poly_lt_S _ _ IHk))))]. intros x. simpl. ring.
Qed.
Lemma chebT_poly k : poly_lt (S k) (chebT k).
Proof.
  induction k using nat_ind2.
  - apply poly_lt_const.
  - eapply poly_lt_ext; [|apply (poly_lt_lin 1 (fun _ => 1) 1 0), poly_lt_const]. intros x. simpl. ring.
  - eapply poly_lt_ext; [intros x; symmetry; apply chebT_SS|].
    eapply poly_lt_ext; [|apply (poly_lt_plus _ _ _ (poly_lt_lin _ _ 2 0 IHk0) (poly_lt_scal _ (-1) _ (poly_lt_S _ _ (poly_lt_S _ _ IHk))))]. intros x. simpl. ring.
Qed.
Lemma chebU_sin k t : sin t * chebU k (cos t) = sin (INR (S k) * t).
Proof.
  induction k using nat_ind2.
  - simpl. rewrite Rmult_1_r, Rmult_1_l. auto.
  - replace (INR 2 * t) with (2 * t) by (simpl; ring). rewrite sin_2a. simpl. ring.
  - rewrite chebU_SS. replace (sin t * (2 * cos t * chebU (S k) (cos t) - chebU k (cos t))) with (2 * cos t * (sin t * chebU (S k) (cos t)) - sin t * chebU k (cos t)) by ring.
    rewrite IHk, IHk0. replace (INR (S (S (S k))) * t) with (INR (S (S k)) * t + t) by (rewrite (S_INR (S (S k))); ring).
    replace (INR (S k) * t) with (INR (S (S k)) * t - t) by (rewrite (S_INR (S k)); ring). rewrite sin_plus, sin_minus. ring.
Qed.
Lemma chebT_cos k t : chebT k (cos t) = cos (INR k * t).
Proof.
  induction k using nat_ind2.
  - simpl. rewrite Rmult_0_l, cos_0. auto.
  - simpl. rewrite Rmult_1_l. auto.
  - rewrite chebT_SS, IHk, IHk0. replace (INR (S (S k)) * t) with (INR (S k) * t + t) by (rewrite (S_INR (S k)); ring).
    replace (INR k * t) with (INR (S k) * t - t) by (rewrite (S_INR k); ring). rewrite cos_plus, cos_minus. ring.
Qed.
Lemma chebU_1 k : chebU k 1 = INR (S k).
Proof. induction k using nat_ind2; [simpl; auto|simpl; ring|]. rewrite chebU_SS, IHk, IHk0, !S_INR. ring. Qed.
Lemma chebU_m1 k : chebU k (-1) = sgn k * INR (S k).
Proof. induction k using nat_ind2; [unfold sgn; simpl; ring|unfold sgn; simpl; ring|]. rewrite chebU_SS, IHk, IHk0, !sgn_S, !S_INR. ring. Qed.
(** composition with the cosine *)
Lemma derive_cos_comp n f (h : R -> R) t d : poly_lt n f -> (forall u, f (cos u) = h u) -> sin t <> 0 -> is_derive h t (- sin t * d) -> is_derive f (cos t) d.
Proof.
  intros F E S H. destruct (poly_derive n f (cos t) F) as (e & D). assert (K : is_derive h t (- sin t * e)).
  { eapply is_derive_ext; [exact E|]. apply (is_derive_comp f cos t e (- sin t) D). apply is_derive_Reals, derivable_pt_lim_cos. }
  apply is_derive_unique in H. apply is_derive_unique in K. replace d with e; auto. apply (Rmult_eq_reg_l (- sin t)); lra.
Qed.

(** ** Second kind *)
Definition std2 (m : nat) : list R := map (fun k => cos (INR k * PI / INR m)) (seq 0 (S m)).
Definition full2 (m : nat) (x : R) : R := (x * x - 1) * chebU (m - 1) x.
Lemma std2_angle m k : (1 <= m)%nat -> (k <= m)%nat -> 0 <= INR k * PI / INR m <= PI.
Proof.
  intros M K. assert (0 < INR m) by (apply lt_0_INR; lia). pose proof PI_RGT_0. pose proof (pos_INR k). apply le_INR in K. split.
  - apply Rmult_le_pos; [nra|]. left. apply Rinv_0_lt_compat; auto.
  - apply (Rmult_le_reg_r (INR m)); auto. unfold Rdiv. rewrite Rmult_assoc, Rinv_l by lra. nra.
Qed.
Lemma std2_angle_lt m i k : (1 <= m)%nat -> (i < k)%nat -> INR i * PI / INR m < INR k * PI / INR m.
Proof.
  intros M K. assert (0 < INR m) by (apply lt_0_INR; lia). pose proof PI_RGT_0. apply lt_INR in K. unfold Rdiv. apply Rmult_lt_compat_r; [apply Rinv_0_lt_compat; auto|]. nra.
Qed.
Lemma seq_sorted s n : StronglySorted Nat.lt (seq s n).
Proof. revert s. induction n; intros s; simpl; constructor; auto. apply Forall_forall. intros x Hx. apply in_seq in Hx. unfold Nat.lt. lia. Qed.
Lemma map_sorted (g : nat -> R) l (Q : R -> R -> Prop) : StronglySorted Nat.lt l -> (forall i j, In i l -> In j l -> (i < j)%nat -> Q (g i) (g j)) -> StronglySorted Q (map g l).
Proof.
  induction 1 as [|i l S IH F]; intros H; simpl; constructor.
  - apply IH. intros u v U V. apply H; simpl; auto.
  - apply Forall_forall. intros x Hx. apply in_map_iff in Hx as (j & <- & J). rewrite Forall_forall in F. apply H; simpl; auto. apply F; auto.
Qed.
Lemma sorted_nodup (Q : R -> R -> Prop) l : (forall x, ~ Q x x) -> StronglySorted Q l -> NoDup l.
Proof. intros N. induction 1; constructor; auto. intros I. rewrite Forall_forall in H0. apply (N a). auto. Qed.
Lemma std2_nodup m : (1 <= m)%nat -> NoDup (std2 m).
Proof.
  intros M. apply (sorted_nodup (fun x y => y < x)); [intros; lra|]. apply map_sorted; [apply seq_sorted|].
  intros i j I J L. apply in_seq in I, J. apply cos_decreasing_1; try (apply std2_angle; lia). apply std2_angle_lt; auto.
Qed.
Lemma full2_cos m t : (1 <= m)%nat -> full2 m (cos t) = - sin t * sin (INR m * t).
Proof.
  intros M. unfold full2. pose proof (chebU_sin (m - 1) t) as E. replace (S (m - 1)) with m in E by lia. rewrite <- E. pose proof (sin2_cos2 t) as P. unfold Rsqr in P.
  replace (cos t * cos t - 1) with (- (sin t * sin t)) by lra. ring.
Qed.
Lemma full2_poly m : (1 <= m)%nat -> poly_lt (S (S m)) (full2 m).
Proof.
  intros M. pose proof (chebU_poly (m - 1)) as P. replace (S (m - 1)) with m in P by lia.
  eapply poly_lt_ext; [|apply (poly_lt_lin _ _ 1 1 (poly_lt_lin _ _ 1 (-1) P))]. intros x. unfold full2. simpl. ring.
Qed.
Lemma std2_length m : length (std2 m) = S m.
Proof. unfold std2. rewrite map_length, seq_length. auto. Qed.
Lemma std2_nth m i : (i <= m)%nat -> nth i (std2 m) 0 = cos (INR i * PI / INR m).
Proof. intros I. unfold std2. rewrite nth_map_seq by lia. auto. Qed.
Lemma full2_derive m i : (1 <= m)%nat -> (i <= m)%nat ->
  is_derive (full2 m) (cos (INR i * PI / INR m)) (sgn i * INR m * (if Nat.eqb i 0 || Nat.eqb i m then 2 else 1)).
Proof.
  intros M I. assert (M0 : 0 < INR m) by (apply lt_0_INR; lia). pose proof (poly_derive _ (chebU (m - 1)) (cos (INR i * PI / INR m)) (chebU_poly (m - 1))) as (d & D).
  destruct (Nat.eqb_spec i 0) as [-> |N0].
  - simpl orb. replace (INR 0 * PI / INR m) with 0 in * by (simpl; field; lra). rewrite cos_0 in *.
    assert (K : is_derive (full2 m) 1 (2 * 1 * chebU (m - 1) 1 + (1 * 1 - 1) * d)).
    { unfold full2. apply (is_derive_mult (fun x => x * x - 1) (chebU (m - 1))); auto; [|apply Rmult_comm]. auto_derive; auto. ring. }
    replace (sgn 0 * INR m * 2) with (2 * 1 * chebU (m - 1) 1 + (1 * 1 - 1) * d); auto. rewrite chebU_1. replace (S (m - 1)) with m by lia. unfold sgn. simpl. ring.
  - destruct (Nat.eqb_spec i m) as [-> |Nm].
    + simpl orb. replace (INR m * PI / INR m) with PI in * by (field; lra). rewrite cos_PI in *.
      assert (K : is_derive (full2 m) (-1) (2 * (-1) * chebU (m - 1) (-1) + ((-1) * (-1) - 1) * d)).
      { unfold full2. apply (is_derive_mult (fun x => x * x - 1) (chebU (m - 1))); auto; [|apply Rmult_comm]. auto_derive; auto. ring. }
      replace (sgn m * INR m * 2) with (2 * (-1) * chebU (m - 1) (-1) + ((-1) * (-1) - 1) * d); auto. rewrite chebU_m1. replace (sgn m) with (- sgn (m - 1)) by (rewrite <- sgn_S; f_equal; lia). replace (S (m - 1)) with m by lia. ring.
    + simpl orb. set (t := INR i * PI / INR m). assert (T : 0 < t < PI).
      { assert (T0 : INR 0 * PI / INR m < t) by (apply std2_angle_lt; lia). assert (T1 : t < INR m * PI / INR m) by (apply std2_angle_lt; lia).
        replace (INR 0 * PI / INR m) with 0 in T0 by (simpl; field; lra). replace (INR m * PI / INR m) with PI in T1 by (field; lra). auto. }
      assert (S0 : 0 < sin t) by (apply sin_gt_0; lra).
      apply (derive_cos_comp (S (S m)) (full2 m) (fun u => - sin u * sin (INR m * u))); auto using full2_poly; [intros u; apply full2_cos; auto|lra|].
      auto_derive; auto. replace (INR m * t) with (INR i * PI) by (unfold t; field; lra). rewrite cos_npi, sin_npi. ring.
Qed.
Lemma full2_root m r : (1 <= m)%nat -> In r (std2 m) -> full2 m r = 0.
Proof.
  intros M H. apply in_map_iff in H as (k & <- & K). apply in_seq in K. rewrite full2_cos by auto. assert (0 < INR m) by (apply lt_0_INR; lia).
  replace (INR m * (INR k * PI / INR m)) with (INR k * PI) by (field; lra). rewrite sin_npi. ring.
Qed.
Lemma cheb_weights_length n : length (cheb_weights n) = n.
Proof. unfold cheb_weights, upd_last. rewrite !upd_length, set_even_length, ones_length. auto. Qed.
Lemma cheb_weights_nth n i : (2 <= n)%nat -> (i < n)%nat -> nth i (cheb_weights n) 0 = - sgn i / (if Nat.eqb i 0 || Nat.eqb i (n - 1) then 2 else 1).
Proof.
  intros N I. unfold cheb_weights, upd_last. rewrite upd_length, set_even_length, ones_length. rewrite !upd_nth by (rewrite ?upd_length, set_even_length, ones_length; auto).
  rewrite set_even_nth, ones_nth by (rewrite ?ones_length; auto). unfold sgn. destruct (Nat.eqb_spec i (n - 1)), (Nat.eqb_spec i 0), (Nat.even i); simpl; try lia; field.
Qed.
Lemma std2_weights m : (1 <= m)%nat -> prop_weights (std2 m) (cheb_weights (S m)).
Proof.
  intros M. assert (M0 : 0 < INR m) by (apply lt_0_INR; lia). assert (LE := std2_length m).
  apply (weights_from_derive _ (full2 m) (fun i => sgn i * INR m * (if Nat.eqb i 0 || Nat.eqb i m then 2 else 1)) _ (- INR m)).
  - rewrite LE. apply full2_poly; auto.
  - apply std2_nodup; auto.
  - intros r. apply full2_root; auto.
  - intros Z. rewrite Z in LE. discriminate.
  - lra.
  - rewrite LE. intros i I. split.
    + pose proof (sgn_ne i). destruct (_ || _); repeat apply Rmult_integral_contrapositive_currified; auto; lra.
    + rewrite std2_nth by lia. apply full2_derive; auto. lia.
  - rewrite cheb_weights_length, LE. auto.
  - rewrite LE. intros i I. rewrite cheb_weights_nth by lia. replace (S m - 1)%nat with m by lia.
    pose proof (sgn_ne i). pose proof (sgn_sq i). destruct (_ || _).
    + replace (- sgn i / 2) with (- (sgn i * sgn i) / (sgn i * 2)) by (field; auto). rewrite H0. field. lra.
    + replace (- sgn i / 1) with (- (sgn i * sgn i) / sgn i) by (field; auto). rewrite H0. field. lra.
Qed.

(** ** affine images of nodes, removing a node *)
Lemma others_map {A B} (g : A -> B) i l : others i (map g l) = map g (others i l).
Proof. unfold others. rewrite firstn_map, skipn_map, map_app. auto. Qed.
Lemma nodal_affine m h l x : nodal (map (fun c => m - h * c) l) (m - h * x) = (- h) ^ length l * nodal l x.
Proof. unfold nodal, prodR. induction l; simpl; [ring|]. rewrite IHl. ring. Qed.
Lemma prop_affine m h l Ws : h <> 0 -> prop_weights l Ws -> prop_weights (map (fun c => m - h * c) l) Ws.
Proof.
  intros H (LW & c & C & HW). split; [rewrite map_length; auto|]. rewrite map_length. exists (c * (- h) ^ (length l - 1)).
  assert (P : (- h) ^ (length l - 1) <> 0) by (apply pow_nonzero; lra). split; [apply Rmult_integral_contrapositive_currified; auto|].
  intros i I. rewrite HW by auto. rewrite others_map. rewrite (nth_indep (map (fun c => m - h * c) l) 0 ((fun c => m - h * c) 0)) by (rewrite map_length; auto). rewrite (map_nth (fun c => m - h * c)). rewrite nodal_affine, others_length by auto.
  unfold Rdiv. rewrite Rinv_mult. transitivity (c * ((- h) ^ (length l - 1) * / (- h) ^ (length l - 1)) * / nodal (others i l) (nth i l 0)); [rewrite Rinv_r by auto|]; ring.
Qed.
Lemma prop_scale l Ws Vs k : k <> 0 -> prop_weights l Ws -> length Vs = length Ws -> (forall i, (i < length l)%nat -> nth i Vs 0 = k * nth i Ws 0) -> prop_weights l Vs.
Proof.
  intros K (LW & c & C & HW) LV E. split; [lia|]. exists (k * c). split; [apply Rmult_integral_contrapositive_currified; auto|]. intros i I. rewrite E, HW by auto. unfold Rdiv. ring.
Qed.
Lemma prop_tail r l w Ws Vs : NoDup (r :: l) -> prop_weights (r :: l) (w :: Ws) -> length Vs = length Ws ->
  (forall i, (i < length l)%nat -> nth i Vs 0 = (nth i l 0 - r) * nth i Ws 0) -> prop_weights l Vs.
Proof.
  intros ND (LW & c & C & HW) LV E. simpl in LW. split; [lia|]. exists c. split; auto. intros i I. rewrite E by auto.
  pose proof (HW (S i)) as H. cbn [nth] in H. rewrite H by (simpl; lia). change (others (S i) (r :: l)) with (r :: others i l).
  replace (nodal (r :: others i l) (nth i l 0)) with ((nth i l 0 - r) * nodal (others i l) (nth i l 0)) by reflexivity.
  assert (nth i l 0 - r <> 0). { inversion ND; subst. intros Z. apply H2. replace r with (nth i l 0) by lra. apply nth_In; auto. }
  unfold Rdiv. rewrite Rinv_mult. transitivity (c * ((nth i l 0 - r) * / (nth i l 0 - r)) * / nodal (others i l) (nth i l 0)); [|rewrite Rinv_r by auto]; ring.
Qed.
Lemma prop_init r l w Ws Vs : NoDup (l ++ [r]) -> prop_weights (l ++ [r]) (Ws ++ [w]) -> length Vs = length Ws ->
  (forall i, (i < length l)%nat -> nth i Vs 0 = (nth i l 0 - r) * nth i Ws 0) -> prop_weights l Vs.
Proof.
  intros ND (LW & c & C & HW) LV E. rewrite !app_length in LW. simpl in LW. split; [lia|]. exists c. split; auto. intros i I. rewrite E by auto.
  pose proof (HW i) as H. rewrite !app_nth1 in H by lia. rewrite H by (rewrite app_length; simpl; lia).
  replace (others i (l ++ [r])) with (others i l ++ [r]).
  2:{ unfold others. rewrite firstn_app, skipn_app. replace (i - length l)%nat with 0%nat by lia. replace (S i - length l)%nat with 0%nat by lia. simpl. rewrite app_nil_r, app_assoc. auto. }
  rewrite nodal_app. replace (nodal [r] (nth i l 0)) with (nth i l 0 - r) by (unfold nodal, prodR; simpl; ring).
  assert (nth i l 0 - r <> 0). { apply NoDup_remove_2 in ND. rewrite app_nil_r in ND. intros Z. apply ND. replace r with (nth i l 0) by lra. apply nth_In; auto. }
  unfold Rdiv. rewrite Rinv_mult. transitivity (c * ((nth i l 0 - r) * / (nth i l 0 - r)) * / nodal (others i l) (nth i l 0)); [|rewrite Rinv_r by auto]; ring.
Qed.
