(** Main lemmas: Chebyshev transforms, derivative, roots and trimming of interpolators (C62, C63). *)
From Coq Require Import Reals Lra Lia List Bool Arith.
From Coquelicot Require Import Coquelicot.
From Verif Require Import Base InterpSpec Interp Grid Quad ChebT ChebTSpec PolyFacts ChebFacts2 ChebFacts3 InterpMain QuadFacts QuadFacts2 QuadFacts3 ChebTFacts ChebTFacts2 ChebTFacts3 ChebTFacts4.
Import List ListNotations.
Open Scope R_scope.

(** C62: ichebt2 undoes chebt2, up to the order of the values. *)
Lemma transform_round_trip_main : forall fs, (2 <= length fs)%nat ->
  exists c v, chebt2 fs = Ok c /\ length c = length fs /\ ichebt2 c = Ok v /\ rev v = fs.
Proof. exact round_trip. Qed.
Lemma series_ser c x : c <> [] -> cheb_series c x = ser (length c - 1) (fun i => nth i c 0) x.
Proof. intros H. rewrite series_fun. unfold ser. destruct c; [congruence|]. simpl length. replace (S (S (length c) - 1)) with (S (length c)) by lia. auto. Qed.
Lemma rev_nth' (c : list R) i d : (i < length c)%nat -> nth i (rev c) d = nth (length c - 1 - i) c d.
Proof. intros H. rewrite rev_nth by auto. f_equal. lia. Qed.
(** C62: from the values of a Chebyshev series chebt2 recovers its coefficients, highest first, with the leading one doubled;
    ichebt2 gives the values of the series with the leading coefficient halved. *)
Lemma transform_coefficients_main : forall c, (2 <= length c)%nat -> exists xs, cheb_nodes (length c) (-1) 1 = Ok xs /\
  chebt2 (map (cheb_series c) xs) = Ok (2 * last c 0 :: tl (rev c)) /\
  exists v, ichebt2 (rev c) = Ok v /\ rev v = map (cheb_series (removelast c ++ [last c 0 / 2])) xs.
Proof.
  intros c L. set (N := (length c - 1)%nat). assert (Lc : length c = S N) by lia. exists (nodes2 (S N) (-1) 1). rewrite Lc. assert (Nc : c <> []) by (intros ->; discriminate).
  assert (Ec : c = map (fun i => nth i c 0) (seq 0 (S N))) by (apply vec_fun; auto).
  assert (La : last c 0 = nth N c 0) by (transitivity (last (map (fun i => nth i c 0) (seq 0 (S N))) 0); [rewrite <- Ec; auto|rewrite last_fun by lia; f_equal; lia]).
  splits.
  - apply cheb_nodes_eq. lia.
  - rewrite (nodes_series N (-1) 1 (cheb_series c) (fun i => nth i c 0)).
    + rewrite chebt2_fun by lia. f_equal. cbn [seq map Nat.eqb]. rewrite La. f_equal. transitivity (tl (rev (map (fun i => nth i c 0) (seq 0 (S N))))); [|rewrite <- Ec; auto]. rewrite rev_fun, tl_fun. rewrite <- seq_shift, map_map. apply map_fun_ext. intros i Hi. cbn [Nat.eqb]. f_equal; lia.
    + intros t. rewrite series_ser by auto. fold N. f_equal. field.
  - assert (Er : rev c = map (fun i => nth (N - i) c 0) (seq 0 (S N))).
    { apply list_fun; [rewrite rev_length; auto|]. intros i Hi. rewrite rev_nth' by lia. f_equal. }
    rewrite Er.
    rewrite (ichebt2_fun N (fun k => nth k c 0)) by lia. eexists. split; [reflexivity|]. rewrite rev_fun.
    assert (Rl : removelast c = map (fun i => nth i c 0) (seq 0 N)) by (transitivity (removelast (map (fun i => nth i c 0) (seq 0 (S N)))); [rewrite <- Ec; auto|apply removelast_fun]).
    assert (Lr : length (removelast c) = N) by (rewrite Rl, fun_length; auto).
    rewrite (nodes_series N (-1) 1 (cheb_series (removelast c ++ [last c 0 / 2])) (fun k => if Nat.eqb k N then nth N c 0 / 2 else nth k c 0)).
    + apply map_fun_ext. intros j Hj. replace (S N - 1 - j)%nat with (N - j)%nat by lia. rewrite half_mirror by lia. auto.
    + intros t. replace ((-1 + 1) / 2 + (1 - -1) / 2 * t) with t by field. rewrite series_ser by (destruct (removelast c); discriminate). rewrite app_length, Lr. simpl length. replace (N + 1 - 1)%nat with N by lia. unfold ser. apply bsum_ext. intros k Hk. f_equal.
      destruct (Nat.eqb_spec k N) as [->|Dk].
      * rewrite app_nth2, Lr, Nat.sub_diag by lia. simpl. rewrite La. auto.
      * rewrite app_nth1 by lia. rewrite Rl. apply nth_seq_map. lia.
Qed.
(** C62: the derivative of an interpolator at n Chebyshev nodes is exact for polynomials of degree below n-1 (and for
    parabolas on three nodes). *)
Lemma diff_exact_main : forall n a b P Ws, (3 <= n)%nat -> a < b -> poly_lt n P -> (poly_lt (n - 1) P \/ n = 3%nat) ->
  exists xs q, cheb_nodes n a b = Ok xs /\ diff2 (BI xs (map P xs) Ws) = Ok q /\ forall x, bcall q x = Ok (Derive P x).
Proof.
  intros n a b P Ws H AB PP L. destruct (diff2_value n a b P Ws H AB PP) as (c & q & C & Q1 & _ & Q2). exists (nodes2 n a b), q. splits; auto.
  - apply cheb_nodes_eq. lia.
  - intros x. rewrite Q2. f_equal. destruct L as [L| ->].
    + rewrite (no_top (n - 1) a b c P ltac:(lia) AB C L). field. lra.
    + simpl (3 - 1)%nat. rewrite top_2. field. lra.
Qed.
(** C62: it is wrong, at least at the right end, for every polynomial of degree n-1 when n is at least four: the doubled
    leading coefficient enters the lower coefficients of the derivative. *)
Lemma diff_top_refuted_main : forall n a b P Ws, (4 <= n)%nat -> a < b -> poly_lt n P -> ~ poly_lt (n - 1) P ->
  exists xs q y, cheb_nodes n a b = Ok xs /\ diff2 (BI xs (map P xs) Ws) = Ok q /\ bcall q b = Ok y /\ y <> Derive P b.
Proof.
  intros n a b P Ws H AB PP L. destruct (diff2_value n a b P Ws ltac:(lia) AB PP) as (c & q & C & Q1 & _ & Q2). exists (nodes2 n a b), q. eexists. splits; auto.
  - apply cheb_nodes_eq. lia.
  - replace ((b - (a + b) / 2) / ((b - a) / 2)) with 1 by (field; lra). rewrite top_1. intros E.
    assert (Z : c (n - 1)%nat <> 0) by (intros Z; apply L; apply (low_top (n - 1) a b c); auto; lia).
    assert (I3 : 3 <= INR (n - 1)) by (replace 3 with (INR 3) by (simpl; ring); apply le_INR; lia).
    assert (W : c (n - 1)%nat * (INR (n - 1) * (INR (n - 1) - 2)) / ((b - a) / 2) <> 0).
    { unfold Rdiv at 1. repeat apply Rmult_integral_contrapositive_currified; try lra; auto. apply Rinv_neq_0_compat. lra. }
    lra.
Qed.
(** C62: with use_2nd=False the interpolator is first evaluated at two more nodes, which makes the derivative exact for
    whatever polynomial the interpolator represents. *)
Lemma diff_resampled_main : forall p P a b, ends (bX p) = Ok (a, b) -> a < b -> poly_lt (length (bX p)) P -> (forall x, bcall p x = Ok (P x)) ->
  exists q, diff1 p = Ok q /\ forall x, bcall q x = Ok (Derive P x).
Proof.
  intros p P a b E AB PP C. set (n := (length (bX p) + 2)%nat). assert (H : (3 <= n)%nat) by (unfold n; destruct (bX p); [discriminate|simpl; lia]).
  destruct (diff_exact_main n a b P (cheb_weights n) H AB) as (xs & q & X & Q1 & Q2); [apply (poly_lt_le (length (bX p))); auto; lia|left; apply (poly_lt_le (length (bX p))); auto; lia|].
  exists q. split; auto. unfold diff1. rewrite E. cbn [rbind]. fold n. rewrite X. cbn [rbind]. rewrite (map_res_ok _ P) by auto. cbn [rbind].
  replace (length xs) with n; auto. rewrite cheb_nodes_eq in X by lia. injection X as <-. symmetry. apply nodes2_length.
Qed.
(** C63: the eigenvalues of the companion matrix are exactly the zeros of the series, for every series with at least three
    coefficients and a leading coefficient other than zero. *)
Lemma companion_eigenvalues_main : forall c, (3 <= length c)%nat -> last c 0 <> 0 ->
  exists M, companion c = Ok M /\ length M = (length c - 1)%nat /\ forall r, eigenvalue M r <-> cheb_series c r = 0.
Proof. exact companion_ok. Qed.
(** C63: what roots returns for a polynomial of degree n-1 on n nodes: the zeros, inside the interval, of the polynomial
    plus its leading term taken twice. *)
Lemma roots_value_main : forall n a b P Ws eigs tol, (3 <= n)%nat -> a < b -> poly_lt n P -> ~ poly_lt (n - 1) P -> 0 < tol ->
  (forall xs c M, cheb_nodes n a b = Ok xs -> chebt2 (map P xs) = Ok c -> companion (rev c) = Ok M -> lists_eigenvalues tol M (eigs M)) ->
  exists xs rs k, cheb_nodes n a b = Ok xs /\ roots2 eigs tol (BI xs (map P xs) Ws) = Ok rs /\ k <> 0 /\
    poly_lt (n - 1) (fun x => P x - k * Tn (n - 1) ((2 * x - a - b) / (b - a))) /\
    forall x, In x rs <-> (a < x < b /\ P x + k * Tn (n - 1) ((2 * x - a - b) / (b - a)) = 0).
Proof.
  intros n a b P Ws eigs tol H AB PP L TP HE. set (N := (n - 1)%nat). assert (En : n = S N) by (unfold N; lia). rewrite En in PP.
  set (m := (a + b) / 2). set (h := (b - a) / 2). assert (Hh : 0 < h) by (unfold h; lra).
  destruct (poly_series N P m h PP) as (c & Hc). assert (Z : c N <> 0) by (intros Z; apply L; apply (low_top N a b c); auto; unfold N; lia).
  assert (E1 : chebt2 (map P (nodes2 n a b)) = Ok (map (fun i => if Nat.eqb i 0 then 2 * c N else c (N - i)%nat) (seq 0 (S N)))) by (rewrite En, (nodes_series N a b P c Hc); apply chebt2_fun; lia).
  set (c2 := fun k => if Nat.eqb k N then 2 * c N else c k).
  assert (E2 : rev (map (fun i => if Nat.eqb i 0 then 2 * c N else c (N - i)%nat) (seq 0 (S N))) = map c2 (seq 0 (S N))).
  { rewrite rev_fun. apply map_fun_ext. intros i Hi. unfold c2. replace (S N - 1 - i)%nat with (N - i)%nat by lia.
    destruct (Nat.eqb_spec (N - i) 0), (Nat.eqb_spec i N); try lia; auto. f_equal. lia. }
  destruct (companion_ok (map c2 (seq 0 (S N)))) as (M & M1 & M2 & M3).
  { rewrite fun_length. lia. }
  { rewrite last_fun by lia. unfold c2. replace (Nat.eqb (S N - 1) N) with true by (symmetry; apply Nat.eqb_eq; lia). lra. }
  assert (HM : lists_eigenvalues tol M (eigs M)) by (apply (HE (nodes2 n a b) _ M (cheb_nodes_eq n a b ltac:(lia)) E1); rewrite E2; auto). destruct HM as (E3 & E4).
  assert (E5 : forall t, cheb_series (map c2 (seq 0 (S N))) t = P (m + h * t) + c N * Tn N t).
  { intros t. rewrite series_ser by discriminate. rewrite fun_length. replace (S N - 1)%nat with N by lia. rewrite Hc, Tn_T. unfold ser. rewrite !bsum_S.
    rewrite nth_seq_map by lia. unfold c2 at 2. rewrite Nat.eqb_refl. rewrite (bsum_ext N _ (fun k => c k * T k t)); [ring|]. intros k Hk. rewrite nth_seq_map by lia. unfold c2. replace (Nat.eqb k N) with false by (symmetry; apply Nat.eqb_neq; lia). auto. }
  exists (nodes2 n a b). eexists. exists (c N). splits; auto.
  - apply cheb_nodes_eq. lia.
  - unfold roots2. cbn [bX bY]. rewrite E1. cbn [rbind]. rewrite E2, M1. cbn [rbind]. rewrite ends_nodes by lia. cbn [rbind]. reflexivity.
  - apply (poly_lt_ext N (fun x => ser (N - 1) c (- m / h + / h * x))).
    + intros x. replace ((2 * x - a - b) / (b - a)) with ((x - m) / h) by (unfold m, h; field; lra). replace (P x) with (P (m + h * ((x - m) / h))) by (f_equal; field; lra). rewrite Hc, Tn_T. unfold ser. replace (S (N - 1)) with N by lia.
      rewrite bsum_S. replace (- m / h + / h * x) with ((x - m) / h) by (field; lra). ring.
    + apply (poly_lt_affine N (ser (N - 1) c)). replace N with (S (N - 1)) at 1 by lia. apply ser_poly.
  - intros x. split.
    + intros I0. apply in_map_iff in I0. destruct I0 as (r & Er & I1). apply filter_In in I1. destruct I1 as (I1 & I2). apply andb_true_iff in I2. rewrite !rlt_true in I2.
      apply in_map_iff in I1. destruct I1 as ((r' & i) & Er' & I1). simpl in Er'. subst r'. apply filter_In in I1. destruct I1 as (I1 & I3). simpl in I3. apply rlt_true in I3.
      destruct (E4 r i I1) as [->|E6]; [|lra]. apply E3 in I1. apply M3 in I1. rewrite E5 in I1.
      assert (Ex : x = m + h * r) by (rewrite <- Er; unfold m, h; field). assert (Et : (2 * x - a - b) / (b - a) = r) by (rewrite <- Er; field; lra).
      rewrite Et, Ex. split; auto. unfold m, h. split; nra.
    + intros (X & X2). set (r := (2 * x - a - b) / (b - a)) in *. assert (Ex : x = m + h * r) by (unfold r, m, h; field; lra).
      assert (Rb : -1 < r < 1) by (unfold r; split; [apply Rlt_div_r; lra|apply Rlt_div_l; lra]).
      apply in_map_iff. exists r. split; [unfold r; field; lra|]. apply filter_In. split; [|apply andb_true_iff; rewrite !rlt_true; lra].
      apply in_map_iff. exists (r, 0). split; auto. apply filter_In. split; [|simpl; apply rlt_true; rewrite Rabs_R0; auto]. apply E3, M3. rewrite E5, <- Ex. auto.
Qed.
(** C63: so none of the roots returned for x^2 - 1/4 on [-1,1] is a root, though there are two. *)
Lemma roots_refuted_main : exists (P : R -> R) xs, cheb_nodes 3 (-1) 1 = Ok xs /\ poly_lt 3 P /\ P (1 / 2) = 0 /\ P (- (1 / 2)) = 0 /\
  forall Ws eigs tol, 0 < tol -> (forall c M, chebt2 (map P xs) = Ok c -> companion (rev c) = Ok M -> lists_eigenvalues tol M (eigs M)) ->
  exists rs, roots2 eigs tol (BI xs (map P xs) Ws) = Ok rs /\ rs <> [] /\ forall x, In x rs -> P x <> 0.
Proof.
  set (P := fun x => x ^ 2 - 1 / 4). assert (PP : poly_lt 3 P) by (exists [- (1 / 4); 0; 1]; split; auto; intros; unfold P; simpl; field).
  assert (NP : ~ poly_lt (3 - 1) P).
  { intros (cs & L & E). destruct cs as [|c0 [|c1 [|c2 cs]]]; try discriminate. pose proof (E 0) as E0. pose proof (E 1) as E1. pose proof (E 2) as E2. unfold P in *. simpl in *. lra. }
  exists P, (nodes2 3 (-1) 1). splits; auto; try (unfold P; field); [apply cheb_nodes_eq; lia|].
  intros Ws eigs tol TP HE.
  destruct (roots_value_main 3 (-1) 1 P Ws eigs tol ltac:(lia) ltac:(lra) PP NP TP) as (xs & rs & k & X & R0 & K & KP & I0).
  { intros xs c M X. rewrite cheb_nodes_eq in X by lia. injection X as <-. apply HE. }
  rewrite cheb_nodes_eq in X by lia. injection X as <-. exists rs. simpl (3 - 1)%nat in *. simpl Tn in *.
  assert (Ek : k = 1 / 2).
  { destruct KP as (cs & L & E). destruct cs as [|c0 [|c1 [|c2 cs]]]; try discriminate. pose proof (E 0) as E0. pose proof (E 1) as E1. pose proof (E (-1)) as E2. unfold P in *. simpl in *. lra. }
  subst k. assert (Q : forall x, (2 * x - -1 - 1) / (1 - -1) = x) by (intros; field). splits; auto.
  - intros ->. apply (I0 (sqrt (3 / 8))). assert (S0 : sqrt (3 / 8) * sqrt (3 / 8) = 3 / 8) by (apply sqrt_def; lra). pose proof (sqrt_pos (3 / 8)). rewrite Q. split; [split; nra|]. unfold P. nra.
  - intros x Hx Z. apply I0 in Hx. destruct Hx as (_ & Hx). rewrite Q, Z in Hx. unfold P in Z. nra.
Qed.
(** C63: a polynomial of lower degree than the nodes allow, the usual case after adaptive interpolation, makes roots raise:
    the leading coefficient is zero. *)
Lemma roots_low_degree_main : forall n a b P Ws eigs tol, (3 <= n)%nat -> a < b -> poly_lt (n - 1) P ->
  exists xs, cheb_nodes n a b = Ok xs /\ roots2 eigs tol (BI xs (map P xs) Ws) = Err EValue.
Proof.
  intros n a b P Ws eigs tol H AB PP. exists (nodes2 n a b). split; [apply cheb_nodes_eq; lia|]. set (N := (n - 1)%nat). assert (En : n = S N) by (unfold N; lia).
  destruct (poly_series N P ((a + b) / 2) ((b - a) / 2)) as (c & Hc); [apply (poly_lt_le (n - 1)); auto; unfold N; lia|].
  pose proof (no_top N a b c P ltac:(unfold N; lia) AB Hc PP) as Z.
  unfold roots2. cbn [bX bY]. rewrite En, (nodes_series N a b P c Hc), chebt2_fun by lia. cbn [rbind]. unfold companion. rewrite rev_length, fun_length.
  replace (Nat.ltb (S N) 3) with false by (symmetry; apply Nat.ltb_ge; lia). rewrite rev_fun, last_fun by lia. replace (S N - 1 - (S N - 1))%nat with 0%nat by lia. cbn [Nat.eqb].
  replace (req (2 * c N) 0) with true by (symmetry; apply req_true; lra). reflexivity.
Qed.
(** C63: trim leaves an interpolator alone when its leading coefficient reaches the tolerance. *)
Lemma trim_keeps_main : forall n a b P tol Ws xs c0 c, (2 <= n)%nat -> a < b -> poly_lt n P -> cheb_nodes n a b = Ok xs ->
  chebt2 (map P xs) = Ok (c0 :: c) -> tol <= c0 ->
  exists q, trim a b tol (BI xs (map P xs) Ws) = Ok q /\ forall x, bcall q x = Ok (P x).
Proof.
  intros n a b P tol Ws xs c0 c H AB PP X E T0. rewrite cheb_nodes_eq in X by auto. injection X as <-. destruct (on_cheb n a b P H AB PP) as (q & Q1 & _ & _ & Q2). exists q. split; auto.
  destruct (round_trip (map P (nodes2 n a b))) as (c' & v & C1 & _ & C2 & C3); [rewrite map_length, nodes2_length; auto|].
  unfold trim. cbn [bY]. rewrite E. cbn [rbind trim_coefs]. rewrite E in C1. injection C1 as <-. replace (rlt c0 tol) with false by (symmetry; apply rlt_false; auto). cbn [rbind]. rewrite C2. cbn [rbind]. rewrite C3. auto.
Qed.
Lemma trim_zeros tol k l : 0 < tol -> trim_coefs tol (repeat 0 k ++ l) = trim_coefs tol l.
Proof. intros H. induction k as [|k IH]; auto. simpl. replace (rlt 0 tol) with true by (symmetry; apply rlt_true; auto). auto. Qed.
(** C63: but when it does cut, it halves what becomes the leading term: a rising line comes back with half its slope, a
    constant as zero, a constant below the tolerance (a negative one for instance) raises. *)
Lemma trim_refuted_main : forall n a b tol s t Ws xs, (3 <= n)%nat -> a < b -> 0 < tol -> cheb_nodes n a b = Ok xs ->
  (tol <= s * (b - a) / 2 -> exists q, trim a b tol (BI xs (map (fun x => s * x + t) xs) Ws) = Ok q /\
     forall x, bcall q x = Ok (s * ((a + b) / 2) + t + s / 2 * (x - (a + b) / 2))) /\
  (tol <= t -> exists q, trim a b tol (BI xs (map (fun _ => t) xs) Ws) = Ok q /\ forall x, bcall q x = Ok 0) /\
  (t < tol -> trim a b tol (BI xs (map (fun _ => t) xs) Ws) = Err EIndex).
Proof.
  intros n a b tol s t Ws xs H AB TP X. rewrite cheb_nodes_eq in X by lia. injection X as <-. set (m := (a + b) / 2). set (h := (b - a) / 2). assert (Hh : 0 < h) by (unfold h; lra). set (N := (n - 1)%nat). assert (En : n = S N) by (unfold N; lia).
  assert (CH : forall s, chebt2 (map (fun x => s * x + t) (nodes2 n a b)) = Ok (repeat 0 (N - 1) ++ [s * h; s * m + t])).
  { clear s. intros s. set (c := fun k => if Nat.eqb k 0 then s * m + t else if Nat.eqb k 1 then s * h else 0).
    rewrite En, (nodes_series N a b _ c).
    - rewrite chebt2_fun by lia. f_equal. symmetry. apply list_fun; [rewrite app_length, repeat_length; simpl; lia|]. intros i Hi.
      destruct (Nat.lt_ge_cases i (N - 1)) as [L|L].
      + rewrite app_nth1 by (rewrite repeat_length; auto). rewrite nth_repeat. unfold c. destruct (Nat.eqb_spec i 0).
        * replace (Nat.eqb N 0) with false by (symmetry; apply Nat.eqb_neq; lia). replace (Nat.eqb N 1) with false by (symmetry; apply Nat.eqb_neq; lia). ring.
        * replace (Nat.eqb (N - i) 0) with false by (symmetry; apply Nat.eqb_neq; lia). replace (Nat.eqb (N - i) 1) with false by (symmetry; apply Nat.eqb_neq; lia). auto.
      + rewrite app_nth2, repeat_length by (rewrite repeat_length; auto). replace (Nat.eqb i 0) with false by (symmetry; apply Nat.eqb_neq; lia). unfold c.
        destruct (Nat.eq_dec i N) as [->|Di].
        * replace (N - (N - 1))%nat with 1%nat by lia. rewrite Nat.sub_diag. reflexivity.
        * replace i with (N - 1)%nat by lia. rewrite Nat.sub_diag. replace (N - (N - 1))%nat with 1%nat by lia. reflexivity.
    - intros y. fold m h. unfold ser. rewrite (bsum_two (S N) 0 1); try lia.
      + unfold c. simpl Nat.eqb. cbv iota. rewrite T_0, T_1. ring.
      + intros i Hi D0 D1. unfold c. apply Nat.eqb_neq in D0. apply Nat.eqb_neq in D1. rewrite D0, D1. ring. }
  assert (CC : chebt2 (map (fun _ => t) (nodes2 n a b)) = Ok (repeat 0 (N - 1) ++ [0; t])).
  { pose proof (CH 0) as C0. rewrite (map_ext _ (fun _ => t)) in C0 by (intros; ring). rewrite C0. do 3 f_equal; [ring|f_equal; ring]. }
  splits.
  - intros Hs. replace (s * (b - a) / 2) with (s * h) in Hs by (unfold h; field).
    set (G := fun x => s * m + t + s / 2 * (x - m)).
    destruct (on_cheb 2 a b G ltac:(lia) AB) as (q & Q1 & _ & _ & Q2); [exists [s * m + t - s / 2 * m; s / 2]; split; auto; intros; unfold G; simpl; ring|].
    exists q. split; auto. unfold trim. cbn [bY]. rewrite CH. cbn [rbind]. rewrite trim_zeros by auto. cbn [trim_coefs]. replace (rlt (s * h) tol) with false by (symmetry; apply rlt_false; auto). cbn [rbind].
    pose proof (ichebt2_fun 1 (fun k => if Nat.eqb k 0 then s * m + t else s * h) ltac:(lia)) as I2. cbn [seq map Nat.sub Nat.eqb] in I2. rewrite I2. cbn [rbind rev app]. rewrite <- Q1. f_equal.
    unfold nodes2. cbn [seq map]. rewrite !(raw_half 1). fold m h. unfold ser, bsum. cbn [seq map sumR Nat.eqb]. rewrite !T_0, !T_1. unfold half. simpl INR. replace (0 * PI / 1) with 0 by field. replace (1 * PI / 1) with PI by field. rewrite cos_0, cos_PI. unfold G, sumR. simpl fold_right. f_equal; [field|f_equal; field].
  - intros Ht. destruct (on_cheb 2 a b (fun _ => 0) ltac:(lia) AB) as (q & Q1 & _ & _ & Q2); [apply poly_lt_0|]. exists q. split; auto.
    unfold trim. cbn [bY]. rewrite CC. cbn [rbind]. rewrite trim_zeros by auto. cbn [trim_coefs]. replace (rlt 0 tol) with true by (symmetry; apply rlt_true; auto). replace (rlt t tol) with false by (symmetry; apply rlt_false; auto). cbn [rbind].
    rewrite <- Q1. unfold ichebt2. cbn [length rbind]. cbv zeta. cbn [Nat.sub]. simpl (INR 0). cbn [Nat.sub app map rev removelast tl last add_lists combine firstn skipn]. unfold ifft_real. cbn [length seq map tl skipn rev firstn combine app hd nth].
    f_equal. unfold nodes2. cbn [seq map]. f_equal; [ring|f_equal; ring].
  - intros Ht. unfold trim. cbn [bY]. rewrite CC. cbn [rbind]. rewrite trim_zeros by auto. cbn [trim_coefs]. replace (rlt 0 tol) with true by (symmetry; apply rlt_true; auto). replace (rlt t tol) with true by (symmetry; apply rlt_true; auto). reflexivity.
Qed.
