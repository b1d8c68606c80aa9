(** Property theorems (ChebT). Proofs are in ChebTMain.v and the files it imports. *)
From Coq Require Import Reals Lra Lia List Bool Arith.
From Coquelicot Require Import Coquelicot.
From Verif Require Import Base InterpSpec Interp Grid Quad ChebT ChebTSpec PolyFacts ChebFacts2 ChebFacts3 InterpMain QuadFacts QuadFacts2 QuadFacts3 ChebTFacts ChebTFacts2 ChebTFacts3 ChebTFacts4.
From Verif Require Import ChebTMain.
Import List ListNotations.
Open Scope R_scope.

(** C62: ichebt2 undoes chebt2, up to the order of the values. *)
Theorem transform_round_trip : forall fs, (2 <= length fs)%nat ->
  exists c v, chebt2 fs = Ok c /\ length c = length fs /\ ichebt2 c = Ok v /\ rev v = fs.
Proof. exact transform_round_trip_main. Qed.
Print Assumptions transform_round_trip.

(** C62: from the values of a Chebyshev series chebt2 recovers its coefficients, highest first, with the leading one doubled;
    ichebt2 gives the values of the series with the leading coefficient halved. *)
Theorem transform_coefficients : forall c, (2 <= length c)%nat -> exists xs, cheb_nodes (length c) (-1) 1 = Ok xs /\
  chebt2 (map (cheb_series c) xs) = Ok (2 * last c 0 :: tl (rev c)) /\
  exists v, ichebt2 (rev c) = Ok v /\ rev v = map (cheb_series (removelast c ++ [last c 0 / 2])) xs.
Proof. exact transform_coefficients_main. Qed.
Print Assumptions transform_coefficients.

(** C62: the derivative of an interpolator at n Chebyshev nodes is exact for polynomials of degree below n-1 (and for
    parabolas on three nodes). *)
Theorem diff_exact : forall n a b P Ws, (3 <= n)%nat -> a < b -> poly_lt n P -> (poly_lt (n - 1) P \/ n = 3%nat) ->
  exists xs q, cheb_nodes n a b = Ok xs /\ diff2 (BI xs (map P xs) Ws) = Ok q /\ forall x, bcall q x = Ok (Derive P x).
Proof. exact diff_exact_main. Qed.
Print Assumptions diff_exact.

(** C62: it is wrong, at least at the right end, for every polynomial of degree n-1 when n is at least four: the doubled
    leading coefficient enters the lower coefficients of the derivative. *)
Theorem diff_top_refuted : forall n a b P Ws, (4 <= n)%nat -> a < b -> poly_lt n P -> ~ poly_lt (n - 1) P ->
  exists xs q y, cheb_nodes n a b = Ok xs /\ diff2 (BI xs (map P xs) Ws) = Ok q /\ bcall q b = Ok y /\ y <> Derive P b.
Proof. exact diff_top_refuted_main. Qed.
Print Assumptions diff_top_refuted.

(** C62: with use_2nd=False the interpolator is first evaluated at two more nodes, which makes the derivative exact for
    whatever polynomial the interpolator represents. *)
Theorem diff_resampled : forall p P a b, ends (bX p) = Ok (a, b) -> a < b -> poly_lt (length (bX p)) P -> (forall x, bcall p x = Ok (P x)) ->
  exists q, diff1 p = Ok q /\ forall x, bcall q x = Ok (Derive P x).
Proof. exact diff_resampled_main. Qed.
Print Assumptions diff_resampled.

(** C63: the eigenvalues of the companion matrix are exactly the zeros of the series, for every series with at least three
    coefficients and a leading coefficient other than zero. *)
Theorem companion_eigenvalues : forall c, (3 <= length c)%nat -> last c 0 <> 0 ->
  exists M, companion c = Ok M /\ length M = (length c - 1)%nat /\ forall r, eigenvalue M r <-> cheb_series c r = 0.
Proof. exact companion_eigenvalues_main. Qed.
Print Assumptions companion_eigenvalues.

(** C63: what roots returns for a polynomial of degree n-1 on n nodes: the zeros, inside the interval, of the polynomial
    plus its leading term taken twice. *)
Theorem roots_value : forall n a b P Ws eigs tol, (3 <= n)%nat -> a < b -> poly_lt n P -> ~ poly_lt (n - 1) P -> 0 < tol ->
  (forall xs c M, cheb_nodes n a b = Ok xs -> chebt2 (map P xs) = Ok c -> companion (rev c) = Ok M -> lists_eigenvalues tol M (eigs M)) ->
  exists xs rs k, cheb_nodes n a b = Ok xs /\ roots2 eigs tol (BI xs (map P xs) Ws) = Ok rs /\ k <> 0 /\
    poly_lt (n - 1) (fun x => P x - k * Tn (n - 1) ((2 * x - a - b) / (b - a))) /\
    forall x, In x rs <-> (a < x < b /\ P x + k * Tn (n - 1) ((2 * x - a - b) / (b - a)) = 0).
Proof. exact roots_value_main. Qed.
Print Assumptions roots_value.

(** C63: so none of the roots returned for x^2 - 1/4 on [-1,1] is a root, though there are two. *)
Theorem roots_refuted : exists (P : R -> R) xs, cheb_nodes 3 (-1) 1 = Ok xs /\ poly_lt 3 P /\ P (1 / 2) = 0 /\ P (- (1 / 2)) = 0 /\
  forall Ws eigs tol, 0 < tol -> (forall c M, chebt2 (map P xs) = Ok c -> companion (rev c) = Ok M -> lists_eigenvalues tol M (eigs M)) ->
  exists rs, roots2 eigs tol (BI xs (map P xs) Ws) = Ok rs /\ rs <> [] /\ forall x, In x rs -> P x <> 0.
Proof. exact roots_refuted_main. Qed.
Print Assumptions roots_refuted.

(** C63: a polynomial of lower degree than the nodes allow, the usual case after adaptive interpolation, makes roots raise:
    the leading coefficient is zero. *)
Theorem roots_low_degree : forall n a b P Ws eigs tol, (3 <= n)%nat -> a < b -> poly_lt (n - 1) P ->
  exists xs, cheb_nodes n a b = Ok xs /\ roots2 eigs tol (BI xs (map P xs) Ws) = Err EValue.
Proof. exact roots_low_degree_main. Qed.
Print Assumptions roots_low_degree.

(** C63: trim leaves an interpolator alone when its leading coefficient reaches the tolerance. *)
Theorem trim_keeps : forall n a b P tol Ws xs c0 c, (2 <= n)%nat -> a < b -> poly_lt n P -> cheb_nodes n a b = Ok xs ->
  chebt2 (map P xs) = Ok (c0 :: c) -> tol <= c0 ->
  exists q, trim a b tol (BI xs (map P xs) Ws) = Ok q /\ forall x, bcall q x = Ok (P x).
Proof. exact trim_keeps_main. Qed.
Print Assumptions trim_keeps.

(** C63: but when it does cut, it halves what becomes the leading term: a rising line comes back with half its slope, a
    constant as zero, a constant below the tolerance (a negative one for instance) raises. *)
Theorem trim_refuted : forall n a b tol s t Ws xs, (3 <= n)%nat -> a < b -> 0 < tol -> cheb_nodes n a b = Ok xs ->
  (tol <= s * (b - a) / 2 -> exists q, trim a b tol (BI xs (map (fun x => s * x + t) xs) Ws) = Ok q /\
     forall x, bcall q x = Ok (s * ((a + b) / 2) + t + s / 2 * (x - (a + b) / 2))) /\
  (tol <= t -> exists q, trim a b tol (BI xs (map (fun _ => t) xs) Ws) = Ok q /\ forall x, bcall q x = Ok 0) /\
  (t < tol -> trim a b tol (BI xs (map (fun _ => t) xs) Ws) = Err EIndex).
Proof. exact trim_refuted_main. Qed.
Print Assumptions trim_refuted.
