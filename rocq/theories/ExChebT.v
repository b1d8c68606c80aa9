(** Concrete instances for the theorems on Chebyshev transforms. *)
From Coq Require Import Reals Lra Lia List Bool Arith.
From Coquelicot Require Import Coquelicot.
From Verif Require Import Base InterpSpec Interp Grid Quad ChebT ChebTSpec PolyFacts ChebFacts2 PropInterp ChebTFacts ChebTFacts4 PropChebT.
Import List ListNotations.
Open Scope R_scope.

(** three values *)
Lemma ex_round_trip : exists c v, chebt2 [1; 2; 4] = Ok c /\ length c = 3%nat /\ ichebt2 c = Ok v /\ rev v = [1; 2; 4].
Proof. apply (transform_round_trip [1; 2; 4]). simpl. lia. Qed.
(** T0 + 5 T2 on three nodes: the coefficient 5 comes back as 10 *)
Lemma ex_coefficients : exists xs, cheb_nodes 3 (-1) 1 = Ok xs /\ chebt2 (map (cheb_series [1; 0; 5]) xs) = Ok [2 * 5; 0; 1].
Proof. destruct (transform_coefficients [1; 0; 5]) as (xs & X & C & _); [simpl; lia|]. exists xs. split; auto. Qed.

Definition cube (x : R) : R := x ^ 3.
Lemma cube_poly : poly_lt 4 cube /\ ~ poly_lt 3 cube.
Proof.
  split; [exists [0; 0; 0; 1]; split; auto; intros; unfold cube; simpl; ring|]. intros (cs & L & E). destruct cs as [|c0 [|c1 [|c2 [|c3 cs]]]]; try discriminate.
  pose proof (E 0) as E0. pose proof (E 1) as E1. pose proof (E (-1)) as E2. pose proof (E 2) as E3. unfold cube in *. simpl in *. lra.
Qed.
Lemma cube_derive x : Derive cube x = 3 * x ^ 2.
Proof. apply is_derive_unique. unfold cube. auto_derive; auto. ring. Qed.
(** on five nodes the derivative of the cube on [0,2] is right, on four it is not *)
Lemma ex_diff : exists xs q, cheb_nodes 5 0 2 = Ok xs /\ diff2 (BI xs (map cube xs) []) = Ok q /\ forall x, bcall q x = Ok (3 * x ^ 2).
Proof.
  destruct (diff_exact 5 0 2 cube []) as (xs & q & X & D & C); try lia; try lra.
  - apply (poly_lt_le 4); [lia|apply cube_poly].
  - left. apply cube_poly.
  - exists xs, q. splits; auto. intros x. rewrite C, cube_derive. auto.
Qed.
Lemma ex_diff_wrong : exists xs q y, cheb_nodes 4 0 2 = Ok xs /\ diff2 (BI xs (map cube xs) []) = Ok q /\ bcall q 2 = Ok y /\ y <> 12.
Proof.
  destruct (diff_top_refuted 4 0 2 cube []) as (xs & q & y & X & D & C & W); try lia; try lra; try apply cube_poly.
  exists xs, q, y. splits; auto. rewrite cube_derive in W. lra.
Qed.
(** resampling mends it *)
Lemma ex_resampled : exists xs q, cheb_nodes 4 0 2 = Ok xs /\ diff1 (BI xs (map cube xs) (cheb_weights 4)) = Ok q /\ forall x, bcall q x = Ok (3 * x ^ 2).
Proof.
  exists (nodes2 4 0 2). assert (X : cheb_nodes 4 0 2 = Ok (nodes2 4 0 2)) by (apply cheb_nodes_eq; lia).
  destruct (diff_resampled (BI (nodes2 4 0 2) (map cube (nodes2 4 0 2)) (cheb_weights 4)) cube 0 2) as (q & D & C); try lra.
  - apply ChebTFacts3.ends_nodes. lia.
  - apply cube_poly.
  - intros x. apply ChebTFacts3.cheb_bary; [lia|lra|apply cube_poly].
  - exists q. splits; auto. intros x. rewrite C, cube_derive. auto.
Qed.
(** x^2 - 1/4 on three nodes: the matrix found has the eigenvalues +-sqrt(3/8), which meet the hypotheses on eigvals *)
Lemma ex_roots : exists xs, cheb_nodes 3 (-1) 1 = Ok xs /\
  forall c M, chebt2 (map (cheb_series [1 / 4; 0; 1 / 2]) xs) = Ok c -> companion (rev c) = Ok M ->
  lists_eigenvalues (1 / 1000) M [(- sqrt (3 / 8), 0); (sqrt (3 / 8), 0)].
Proof.
  destruct (transform_coefficients [1 / 4; 0; 1 / 2]) as (xs & X & C & _); [simpl; lia|]. exists xs. split; auto.
  intros c M E1 E2. rewrite C in E1. injection E1 as <-. simpl in E2.
  destruct (companion_eigenvalues [1 / 4; 0; 2 * (1 / 2)]) as (M' & M1 & _ & M2); [simpl; lia|simpl; lra|]. rewrite E2 in M1. injection M1 as <-.
  assert (S0 : sqrt (3 / 8) * sqrt (3 / 8) = 3 / 8) by (apply sqrt_def; lra). pose proof (sqrt_pos (3 / 8)).
  split.
  - intros r. rewrite M2. unfold cheb_series. cbn [length seq map nth Tn]. unfold sumR. cbn [fold_right]. split.
    + intros [E|[E|[]]]; injection E as <-; nra.
    + intros E. assert (F : (r - sqrt (3 / 8)) * (r + sqrt (3 / 8)) = 0) by nra. destruct (Rmult_integral _ _ F); [right; left|left]; f_equal; lra.
  - intros r i [E|[E|[]]]; injection E as _ <-; auto.
Qed.
(** a line with slope 2 on [0,4] comes back from trim with slope 1 *)
Lemma ex_trim : exists xs q, cheb_nodes 9 0 4 = Ok xs /\ trim 0 4 (1 / 1000) (BI xs (map (fun x => 2 * x + 7) xs) []) = Ok q /\ forall x, bcall q x = Ok (2 * ((0 + 4) / 2) + 7 + 2 / 2 * (x - (0 + 4) / 2)).
Proof.
  exists (nodes2 9 0 4). assert (X : cheb_nodes 9 0 4 = Ok (nodes2 9 0 4)) by (apply cheb_nodes_eq; lia).
  destruct (proj1 (trim_refuted 9 0 4 (1 / 1000) 2 7 [] (nodes2 9 0 4) ltac:(lia) ltac:(lra) ltac:(lra) X)) as (q & Q1 & Q2); [lra|]. exists q. auto.
Qed.
(** T0 + 5 T2: nothing is cut *)
Lemma ex_trim_keeps : exists xs q, cheb_nodes 3 (-1) 1 = Ok xs /\ trim (-1) 1 (1 / 1000) (BI xs (map (cheb_series [1; 0; 5]) xs) []) = Ok q /\ forall x, bcall q x = Ok (cheb_series [1; 0; 5] x).
Proof.
  destruct (transform_coefficients [1; 0; 5]) as (xs & X & C & _); [simpl; lia|]. exists xs.
  destruct (trim_keeps 3 (-1) 1 (cheb_series [1; 0; 5]) (1 / 1000) [] xs (2 * 5) [0; 1]) as (q & Q1 & Q2); auto; try lra; try lia.
  - exists [-4; 0; 10]. split; auto. intros x. unfold cheb_series. cbn [length seq map nth Tn poly]. unfold sumR. cbn [fold_right]. ring.
  - exists q. auto.
Qed.
