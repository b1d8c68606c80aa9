(** Concrete instances for the theorems on quadrature. *)
From Coq Require Import Reals Lra Lia List Bool Arith.
From Coquelicot Require Import Coquelicot.
From Verif Require Import Base Conv ConvSpec InterpSpec Interp Grid Quad ChebFacts2 QuadFacts QuadFacts2 QuadFacts3 QuadFacts4 PropQuad.
Import List ListNotations.
Open Scope R_scope.

(** three nodes: the Clenshaw-Curtis rule is Simpson's rule, Fejer's the midpoint rule *)
Lemma ex_simpson : clenshaw_coefficients 3 = Ok [1/3; 4/3; 1/3] /\ fejer2_coefficients 3 = Ok [2].
Proof.
  assert (F : fejer2_coefficients 3 = Ok [2]).
  { destruct (proj2 (weights_positive 3 ltac:(lia))) as (ws & E & L & _ & Sm & _). rewrite E. destruct ws as [|x [|y ws]]; try discriminate. simpl in Sm. do 2 f_equal. lra. }
  split; auto.
  destruct (proj1 (weights_positive 3 ltac:(lia))) as (ws & E & L & _ & Sm & Rv). rewrite E.
  destruct ws as [|x [|y [|z [|u ws]]]]; try discriminate. simpl in Rv, Sm. injection Rv; intros _ Zx. subst z.
  destruct (clenshaw_exact 3 (-1) 1 [0; 0; 1] ltac:(lia) ltac:(simpl; lia)) as (ws & xs & E1 & E2 & E3). rewrite E in E1. injection E1 as <-.
  assert (I3 : RInt (poly [0; 0; 1]) (-1) 1 = 2 / 3).
  { apply is_RInt_unique. replace (2 / 3) with (minus ((fun x => x ^ 3 / 3) 1) ((fun x => x ^ 3 / 3) (-1))) by (unfold minus, plus, opp; simpl; lra).
    apply (is_RInt_derive (V := R_CompleteNormedModule) (fun x => x ^ 3 / 3)); [|intros; apply poly_cont]. intros t _. auto_derive; auto. simpl. field. }
  rewrite I3 in E3.
  rewrite cheb_nodes_eq in E2 by lia. injection E2 as <-. unfold quad_sum, nodes2 in E3. cbn in E3.
  rewrite (raw_first 3), (raw_last 3) in E3 by lia. replace (cheb_raw 3 (-1) 1 1) with 0 in E3.
  2:{ unfold cheb_raw. simpl. replace (1 * PI / (1 + 1)) with (PI / 2) by lra. rewrite cos_PI2. lra. }
  injection E3 as E3. repeat f_equal; lra.
Qed.

(** the default parameters, for any function between 0 and 5 on [1,4] *)
Lemma ex_bounds (f : R -> R) : (forall t, 1 <= t <= 4 -> 0 <= f t <= 5) ->
  exists v e, integrate_fejer2 f 1 4 (MPar (1/1000) 0 2 2 (1/2) false) 1000 (1/2) 1000 = Ok (v, e) /\ 0 <= v <= 15.
Proof.
  intros H. destruct (fejer2_bounds f 1 4 (MPar (1/1000) 0 2 2 (1/2) false) 1000 (1/2) 1000 0 5) as (v & e & E & B & _); simpl; try lra; try lia; auto.
  exists v, e. split; auto. lra.
Qed.

(** a kink: |t| lies within 1/2 of the constant 1/2 on [-1,1] *)
Lemma ex_kink : exists v e, integrate_fejer2 Rabs (-1) 1 (MPar (1/1000) 0 2 2 (1/2) false) 1000 (1/2) 1000 = Ok (v, e) /\ Rabs (v - RInt Rabs (-1) 1) <= 2 /\ e <= 4.
Proof.
  destruct (fejer2_accuracy Rabs (-1) 1 (MPar (1/1000) 0 2 2 (1/2) false) 1000 (1/2) 1000 [1/2] (1/2)) as (v & e & E & B1 & B2); simpl; try lra; try lia.
  - apply (ex_RInt_continuous (V := R_CompleteNormedModule)). intros t _. apply continuous_Rabs.
  - intros t Ht. apply Rabs_le. destruct (Rcase_abs t); [rewrite Rabs_left by lra|rewrite Rabs_right by lra]; lra.
  - exists v, e. splits; auto; simpl in *; [specialize (B1 ltac:(lia))|specialize (B2 ltac:(lia))]; lra.
Qed.

(** an integral with its value: the cube on [0,2] *)
Lemma ex_cube : integrate_fejer2 (poly [0; 0; 0; 1]) 0 2 (MPar (1/1000) 0 2 2 (1/2) false) 1000 (1/2) 1000 = Ok (4, 0).
Proof.
  destruct (fejer2_polynomial 0 2 (MPar (1/1000) 0 2 2 (1/2) false) 1000 (1/2) 1000 [0; 0; 0; 1]) as (e & E & Z); simpl length; simpl ratio; try lra; try lia.
  rewrite E, Z by (simpl; lia). do 2 f_equal. apply is_RInt_unique.
  replace 4 with (minus ((fun x => x ^ 4 / 4) 2) ((fun x => x ^ 4 / 4) 0)) by (unfold minus, plus, opp; simpl; lra).
  apply (is_RInt_derive (V := R_CompleteNormedModule) (fun x => x ^ 4 / 4)); [|intros; apply poly_cont]. intros t _. auto_derive; auto. simpl. field.
Qed.

(** exp has a jump at the end: Fejer's rule does not see it *)
Lemma ex_jump : exists fe : nat -> R,
  (forall n ws xs, (3 <= n)%nat -> fejer2_coefficients n = Ok ws -> cheb_nodes n 0 1 = Ok xs ->
     quad_sum (map (fun t => if req t 0 then 7 else exp t) (removelast (tl xs))) ws 0 1 = Ok (fe n)) /\ is_lim_seq fe (exp 1 - 1).
Proof.
  destruct (quadrature_converges (fun t => if req t 0 then 7 else exp t) exp 0 1) as (cc & fe & _ & H & _ & L); try lra.
  - intros t _. apply continuous_exp.
  - intros t Ht. destruct (req t 0) eqn:E; auto. apply req_true in E. lra.
  - exists fe. split; auto. replace (exp 1 - 1) with (RInt (fun t => if req t 0 then 7 else exp t) 0 1); auto.
    rewrite (RInt_ext _ exp).
    + apply is_RInt_unique. replace (exp 1 - 1) with (minus (exp 1) (exp 0)) by (unfold minus, plus, opp; simpl; rewrite exp_0; ring).
      apply (is_RInt_derive (V := R_CompleteNormedModule) exp exp); intros; [apply is_derive_exp|apply continuous_exp].
    + intros t. rewrite Rmin_left, Rmax_right by lra. intros Ht. destruct (req t 0) eqn:E; auto. apply req_true in E. lra.
Qed.
