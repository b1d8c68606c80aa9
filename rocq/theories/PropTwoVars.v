(** Property theorems (TwoVars). Proofs are in TwoVarsMain.v and the files it imports. *)
From Coq Require Import Reals Lra List Bool Sorted.
From Coquelicot Require Import Coquelicot.
From Verif Require Import Base Seg Piecewise PiecewiseSpec PiecewiseFacts PiecewiseFacts2 Integral SegInt SegIntSpec IntParts IntegralFacts IntPartsFacts SegIntFacts Indep IndepSpec AtomFacts IndepAsm ConvolFacts CondFacts2 ExtrFacts2 InfoMain TwoVars TwoVarsSpec TwoVarsFacts TwoVarsFacts2 TwoVarsFacts3.
From Verif Require Import TwoVarsMain.
Import List ListNotations.
Open Scope R_scope.

(** C66: the limits of integration.  Whenever the curve op(x,y) = z is monotone over the rectangle and sympy's answers describe it,
    getUL gives exactly the part of the curve that lies strictly inside the rectangle; when that part is empty the limits are not in
    increasing order and nothing is integrated. *)
Theorem limits_exact :
  forall alongx cut ax bx ay by_ (z : R) inc c d, Rbar_lt ax bx -> Rbar_lt ay by_ ->
  cut ay z = Ok (Some c) -> cut by_ z = Ok (Some d) ->
  crosses inc (fun t => alongx t z) ax bx ay c -> crosses inc (fun t => alongx t z) ax bx by_ d ->
  exists L U, getUL alongx cut ax bx ay by_ z = Ok (L, U) /\
    forall t : R, Rbar_lt (bmin U L) t /\ Rbar_lt t (bmax U L) <->
      Rbar_lt ax t /\ Rbar_lt t bx /\ exists v, alongx t z = Some v /\ Rbar_lt ay v /\ Rbar_lt v by_.
Proof. exact limits_exact_main. Qed.
Print Assumptions limits_exact.

(** C66: the whole density, for any operation and any joint density, when neither variable has atoms.  The result exists, its pieces
    are ordered, it has no atoms, all its break points are values of the operation at two ends; at every other z where the curve is
    monotone in every rectangle its value is the integral of the joint density along the whole curve inside the support. *)
Theorem two_vars_exact :
  forall op alongx cut (h j p : R -> R -> R) eps f g,
  ordered f -> ordered g -> Forall wf_seg f -> Forall wf_seg g -> no_atoms f -> no_atoms g ->
  (exists x y (r : R), is_end f x /\ is_end g y /\ op x y = Some (Finite r)) ->
  exists q, convmodel op alongx cut h j p eps f g = Ok q /\ ordered (segs q) /\ Forall wf_seg (segs q) /\ no_atoms (segs q) /\
    (forall z : R, ~ end_value op f g z ->
       (forall si sj, In si f -> In sj g -> monotone_curve alongx cut h z si sj /\ curve_integrable p h j z si sj /\ surrounded op h z si sj) ->
       curve_density f g p h j z (call_vec (segs q) z)) /\
    (forall z : R, ~ end_value op f g z -> ~ In (Finite z) (getBreaks (segs q))).
Proof. exact two_vars_exact_main. Qed.
Print Assumptions two_vars_exact.

(** C66: the sum of two dependent variables: every z that is not a sum of two ends, for any pieces. *)
Theorem two_vars_sum_exact :
  forall (p : R -> R -> R) eps f g, ordered f -> ordered g -> Forall wf_seg f -> Forall wf_seg g -> no_atoms f -> no_atoms g ->
  (exists x : R, is_end f x) -> (exists y : R, is_end g y) ->
  exists q, convmodel op_add sum_alongx sum_cut (fun t z => z - t) (fun _ _ => 1) p eps f g = Ok q /\ ordered (segs q) /\ Forall wf_seg (segs q) /\
    (forall z : R, ~ end_value op_add f g z -> (forall si sj, In si f -> In sj g -> curve_integrable p (fun t z => z - t) (fun _ _ => 1) z si sj) ->
       curve_density f g p (fun t z => z - t) (fun _ _ => 1) z (call_vec (segs q) z)).
Proof. exact two_vars_sum_exact_main. Qed.
Print Assumptions two_vars_sum_exact.

(** C66: the difference of two dependent variables. *)
Theorem two_vars_difference_exact :
  forall (p : R -> R -> R) eps f g, ordered f -> ordered g -> Forall wf_seg f -> Forall wf_seg g -> no_atoms f -> no_atoms g ->
  (exists x : R, is_end f x) -> (exists y : R, is_end g y) ->
  exists q, convmodel op_sub sub_alongx sub_cut (fun t z => t - z) (fun _ _ => -1) p eps f g = Ok q /\ ordered (segs q) /\ Forall wf_seg (segs q) /\
    (forall z : R, ~ end_value op_sub f g z -> (forall si sj, In si f -> In sj g -> curve_integrable p (fun t z => t - z) (fun _ _ => -1) z si sj) ->
       curve_density f g p (fun t z => t - z) (fun _ _ => -1) z (call_vec (segs q) z)).
Proof. exact two_vars_difference_exact_main. Qed.
Print Assumptions two_vars_difference_exact.

(** C66: the product of two dependent variables, when no piece reaches 0 (a piece may lie on either side of 0). *)
Theorem two_vars_product_exact :
  forall (p : R -> R -> R) eps f g, ordered f -> ordered g -> Forall wf_seg f -> Forall wf_seg g -> no_atoms f -> no_atoms g ->
  (forall s, In s f \/ In s g -> off_zero s) -> (exists x : R, is_end f x) -> (exists y : R, is_end g y) ->
  exists q, convmodel op_mul mul_alongx mul_cut (fun t z => z / t) (fun t _ => / t) p eps f g = Ok q /\ ordered (segs q) /\ Forall wf_seg (segs q) /\
    (forall z : R, ~ end_value op_mul f g z -> (forall si sj, In si f -> In sj g -> curve_integrable p (fun t z => z / t) (fun t _ => / t) z si sj) ->
       curve_density f g p (fun t z => z / t) (fun t _ => / t) z (call_vec (segs q) z)).
Proof. exact two_vars_product_exact_main. Qed.
Print Assumptions two_vars_product_exact.

(** C66: with the product of the two densities as joint density, the value is the density of the sum (and, below, of the product) of
    independent variables, as given by the convolution of indeparith.  Unlike the convolution there (C24) gaps between pieces do no
    harm. *)
Theorem two_vars_sum_independent :
  forall eps f g, ordered f -> ordered g -> Forall wf_seg f -> Forall wf_seg g -> no_atoms f -> no_atoms g ->
  (exists x : R, is_end f x) -> (exists y : R, is_end g y) ->
  exists q, convmodel op_add sum_alongx sum_cut (fun t z => z - t) (fun _ _ => 1) (fun x y => dens f x * dens g y) eps f g = Ok q /\
    (forall z : R, ~ end_value op_add f g z ->
       (forall si sj, In si f -> In sj g -> curve_integrable (fun x y => dens f x * dens g y) (fun t z => z - t) (fun _ _ => 1) z si sj) ->
       sum_density f g z (call_vec (segs q) z)).
Proof. exact two_vars_sum_independent_main. Qed.
Print Assumptions two_vars_sum_independent.

Theorem two_vars_product_independent :
  forall eps f g, ordered f -> ordered g -> Forall wf_seg f -> Forall wf_seg g -> no_atoms f -> no_atoms g ->
  (forall s, In s f \/ In s g -> off_zero s) -> (exists x : R, is_end f x) -> (exists y : R, is_end g y) ->
  exists q, convmodel op_mul mul_alongx mul_cut (fun t z => z / t) (fun t _ => / t) (fun x y => dens f x * dens g y) eps f g = Ok q /\
    (forall z : R, ~ end_value op_mul f g z ->
       (forall si sj, In si f -> In sj g -> curve_integrable (fun x y => dens f x * dens g y) (fun t z => z / t) (fun t _ => / t) z si sj) ->
       prod_density f g z (call_vec (segs q) z)).
Proof. exact two_vars_product_independent_main. Qed.
Print Assumptions two_vars_product_independent.

(** C66: a piece that ends at 0 makes the product fail at every z, whatever the other piece and the joint density: sympy finds no x
    with z/x = 0 (IndexError), and z/0 is no number (TypeError). *)
Theorem two_vars_product_zero :
  forall (p : R -> R -> R) (z : R) si sj, (sa si = Finite 0 \/ sb si = Finite 0 \/ sa sj = Finite 0 \/ sb sj = Finite 0) ->
  exists e, rect_int mul_alongx mul_cut (fun t z => z / t) (fun t _ => / t) p z si sj = Err e.
Proof. exact two_vars_product_zero_main. Qed.
Print Assumptions two_vars_product_zero.

(** C66: with an atom, the value of the previous pair of pieces is added once more in place of the mass of the atom: X is uniform on
    [0,1] with probability 1/2 and 1 otherwise, Y is uniform on [0,1]; the density of X+Y at 3/2 is 3/4, the value computed is 1/2. *)
Theorem two_vars_atom_refuted :
  exists f g (z v v' : R), ordered f /\ Forall wf_seg f /\ ordered g /\ Forall wf_seg g /\ pm f 1 = 1/2 /\
    rbind (findSegList f g z op_add) (fun l => convmodelx sum_alongx sum_cut (fun t z => z - t) (fun _ _ => 1) (fun x y => dens f x * dens g y) l z) = Ok v /\
    sum_density f g z v' /\ v <> v'.
Proof. exact two_vars_atom_refuted_main. Qed.
Print Assumptions two_vars_atom_refuted.

(** C66: with the atom in front of the first continuous piece, the variable has no value yet and the program stops. *)
Theorem two_vars_atom_first_refuted :
  exists f g (z : R), ordered f /\ Forall wf_seg f /\ ordered g /\ Forall wf_seg g /\ pm f 0 = 1/2 /\
    rbind (findSegList f g z op_add) (fun l => convmodelx sum_alongx sum_cut (fun t z => z - t) (fun _ _ => 1) (fun x y => dens f x * dens g y) l z) = Err EName.
Proof. exact two_vars_atom_first_refuted_main. Qed.
Print Assumptions two_vars_atom_first_refuted.
