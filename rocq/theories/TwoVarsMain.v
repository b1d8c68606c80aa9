(** Main statements about functions of two dependent variables. *)
From Coq Require Import Reals Lra List Bool Sorted.
From Coquelicot Require Import Coquelicot.
From Verif Require Import Base Seg Piecewise PiecewiseSpec PiecewiseFacts PiecewiseFacts2 Integral SegInt SegIntSpec IntParts IntegralFacts IntPartsFacts SegIntFacts Indep IndepSpec AtomFacts IndepAsm ConvolFacts CondFacts2 ExtrFacts2 InfoMain TwoVars TwoVarsSpec TwoVarsFacts TwoVarsFacts2 TwoVarsFacts3.
Import List ListNotations.
Open Scope R_scope.

(** C66: the limits of integration.  Whenever the curve op(x,y) = z is monotone over the rectangle and sympy's answers describe it,
    getUL gives exactly the part of the curve that lies strictly inside the rectangle; when that part is empty the limits are not in
    increasing order and nothing is integrated. *)
Lemma limits_exact_main :
  forall alongx cut ax bx ay by_ (z : R) inc c d, Rbar_lt ax bx -> Rbar_lt ay by_ ->
  cut ay z = Ok (Some c) -> cut by_ z = Ok (Some d) ->
  crosses inc (fun t => alongx t z) ax bx ay c -> crosses inc (fun t => alongx t z) ax bx by_ d ->
  exists L U, getUL alongx cut ax bx ay by_ z = Ok (L, U) /\
    forall t : R, Rbar_lt (bmin U L) t /\ Rbar_lt t (bmax U L) <->
      Rbar_lt ax t /\ Rbar_lt t bx /\ exists v, alongx t z = Some v /\ Rbar_lt ay v /\ Rbar_lt v by_.
Proof.
  intros alongx cut ax bx ay by_ z inc c d X Y C D K1 K2. destruct (getUL_ok alongx cut ax bx ay by_ z inc c d X Y C D K1 K2) as (L & U & E & T).
  exists L, U. split; [exact E|]. intros t. apply (T t).
Qed.

(** C66: the whole density, for any operation and any joint density, when neither variable has atoms.  The result exists, its pieces
    are ordered, it has no atoms, all its break points are values of the operation at two ends; at every other z where the curve is
    monotone in every rectangle its value is the integral of the joint density along the whole curve inside the support. *)
Lemma two_vars_exact_main :
  forall op alongx cut (h j p : R -> R -> R) eps f g,
  ordered f -> ordered g -> Forall wf_seg f -> Forall wf_seg g -> no_atoms f -> no_atoms g ->
  (exists x y (r : R), is_end f x /\ is_end g y /\ op x y = Some (Finite r)) ->
  exists q, convmodel op alongx cut h j p eps f g = Ok q /\ ordered (segs q) /\ Forall wf_seg (segs q) /\ no_atoms (segs q) /\
    (forall z : R, ~ end_value op f g z ->
       (forall si sj, In si f -> In sj g -> monotone_curve alongx cut h z si sj /\ curve_integrable p h j z si sj /\ surrounded op h z si sj) ->
       curve_density f g p h j z (call_vec (segs q) z)) /\
    (forall z : R, ~ end_value op f g z -> ~ In (Finite z) (getBreaks (segs q))).
Proof. intros. apply whole_ok; auto. Qed.

(** C66: the sum of two dependent variables: every z that is not a sum of two ends, for any pieces. *)
Lemma two_vars_sum_exact_main :
  forall (p : R -> R -> R) eps f g, ordered f -> ordered g -> Forall wf_seg f -> Forall wf_seg g -> no_atoms f -> no_atoms g ->
  (exists x : R, is_end f x) -> (exists y : R, is_end g y) ->
  exists q, convmodel op_add sum_alongx sum_cut (fun t z => z - t) (fun _ _ => 1) p eps f g = Ok q /\ ordered (segs q) /\ Forall wf_seg (segs q) /\
    (forall z : R, ~ end_value op_add f g z -> (forall si sj, In si f -> In sj g -> curve_integrable p (fun t z => z - t) (fun _ _ => 1) z si sj) ->
       curve_density f g p (fun t z => z - t) (fun _ _ => 1) z (call_vec (segs q) z)).
Proof.
  intros p eps f g Of Og Wf Wg Nf Ng (x & Hx) (y & Hy).
  destruct (whole_ok op_add sum_alongx sum_cut (fun t z => z - t) (fun _ _ => 1) p f g Of Og Wf Wg Nf Ng eps) as (q & A & B & C & _ & D & _).
  - exists x, y, (x + y). auto.
  - exists q. splits; auto. intros z N I. apply D; auto. intros si sj Hi Hj. rewrite Forall_forall in Wf, Wg. splits; auto.
    + apply sum_curve.
    + apply sum_surrounded; auto.
Qed.

(** C66: the difference of two dependent variables. *)
Lemma two_vars_difference_exact_main :
  forall (p : R -> R -> R) eps f g, ordered f -> ordered g -> Forall wf_seg f -> Forall wf_seg g -> no_atoms f -> no_atoms g ->
  (exists x : R, is_end f x) -> (exists y : R, is_end g y) ->
  exists q, convmodel op_sub sub_alongx sub_cut (fun t z => t - z) (fun _ _ => -1) p eps f g = Ok q /\ ordered (segs q) /\ Forall wf_seg (segs q) /\
    (forall z : R, ~ end_value op_sub f g z -> (forall si sj, In si f -> In sj g -> curve_integrable p (fun t z => t - z) (fun _ _ => -1) z si sj) ->
       curve_density f g p (fun t z => t - z) (fun _ _ => -1) z (call_vec (segs q) z)).
Proof.
  intros p eps f g Of Og Wf Wg Nf Ng (x & Hx) (y & Hy).
  destruct (whole_ok op_sub sub_alongx sub_cut (fun t z => t - z) (fun _ _ => -1) p f g Of Og Wf Wg Nf Ng eps) as (q & A & B & C & _ & D & _).
  - exists x, y, (x + - y). auto.
  - exists q. splits; auto. intros z N I. apply D; auto. intros si sj Hi Hj. rewrite Forall_forall in Wf, Wg. splits; auto.
    + apply sub_curve.
    + apply sub_surrounded; auto.
Qed.

(** C66: the product of two dependent variables, when no piece reaches 0 (a piece may lie on either side of 0). *)
Lemma two_vars_product_exact_main :
  forall (p : R -> R -> R) eps f g, ordered f -> ordered g -> Forall wf_seg f -> Forall wf_seg g -> no_atoms f -> no_atoms g ->
  (forall s, In s f \/ In s g -> off_zero s) -> (exists x : R, is_end f x) -> (exists y : R, is_end g y) ->
  exists q, convmodel op_mul mul_alongx mul_cut (fun t z => z / t) (fun t _ => / t) p eps f g = Ok q /\ ordered (segs q) /\ Forall wf_seg (segs q) /\
    (forall z : R, ~ end_value op_mul f g z -> (forall si sj, In si f -> In sj g -> curve_integrable p (fun t z => z / t) (fun t _ => / t) z si sj) ->
       curve_density f g p (fun t z => z / t) (fun t _ => / t) z (call_vec (segs q) z)).
Proof.
  intros p eps f g Of Og Wf Wg Nf Ng Z (x & Hx) (y & Hy).
  destruct (whole_ok op_mul mul_alongx mul_cut (fun t z => z / t) (fun t _ => / t) p f g Of Og Wf Wg Nf Ng eps) as (q & A & B & C & _ & D & _).
  - exists x, y, (x * y). auto.
  - exists q. splits; auto. intros z N I. apply D; auto. intros si sj Hi Hj. rewrite Forall_forall in Wf, Wg. splits; auto.
    + apply mul_curve; auto.
    + apply mul_surrounded; auto.
Qed.

(** C66: with the product of the two densities as joint density, the value is the density of the sum (and, below, of the product) of
    independent variables, as given by the convolution of indeparith.  Unlike the convolution there (C24) gaps between pieces do no
    harm. *)
Lemma two_vars_sum_independent_main :
  forall eps f g, ordered f -> ordered g -> Forall wf_seg f -> Forall wf_seg g -> no_atoms f -> no_atoms g ->
  (exists x : R, is_end f x) -> (exists y : R, is_end g y) ->
  exists q, convmodel op_add sum_alongx sum_cut (fun t z => z - t) (fun _ _ => 1) (fun x y => dens f x * dens g y) eps f g = Ok q /\
    (forall z : R, ~ end_value op_add f g z ->
       (forall si sj, In si f -> In sj g -> curve_integrable (fun x y => dens f x * dens g y) (fun t z => z - t) (fun _ _ => 1) z si sj) ->
       sum_density f g z (call_vec (segs q) z)).
Proof.
  intros eps f g Of Og Wf Wg Nf Ng X Y. destruct (two_vars_sum_exact_main (fun x y => dens f x * dens g y) eps f g Of Og Wf Wg Nf Ng X Y) as (q & A & _ & _ & D).
  exists q. split; auto. intros z N I. apply curve_sum; auto.
Qed.
Lemma two_vars_product_independent_main :
  forall eps f g, ordered f -> ordered g -> Forall wf_seg f -> Forall wf_seg g -> no_atoms f -> no_atoms g ->
  (forall s, In s f \/ In s g -> off_zero s) -> (exists x : R, is_end f x) -> (exists y : R, is_end g y) ->
  exists q, convmodel op_mul mul_alongx mul_cut (fun t z => z / t) (fun t _ => / t) (fun x y => dens f x * dens g y) eps f g = Ok q /\
    (forall z : R, ~ end_value op_mul f g z ->
       (forall si sj, In si f -> In sj g -> curve_integrable (fun x y => dens f x * dens g y) (fun t z => z / t) (fun t _ => / t) z si sj) ->
       prod_density f g z (call_vec (segs q) z)).
Proof.
  intros eps f g Of Og Wf Wg Nf Ng Z X Y. destruct (two_vars_product_exact_main (fun x y => dens f x * dens g y) eps f g Of Og Wf Wg Nf Ng Z X Y) as (q & A & _ & _ & D).
  exists q. split; auto. intros z N I. apply curve_prod; auto.
Qed.

(** C66: a piece that ends at 0 makes the product fail at every z, whatever the other piece and the joint density: sympy finds no x
    with z/x = 0 (IndexError), and z/0 is no number (TypeError). *)
Lemma two_vars_product_zero_main :
  forall (p : R -> R -> R) (z : R) si sj, (sa si = Finite 0 \/ sb si = Finite 0 \/ sa sj = Finite 0 \/ sb sj = Finite 0) ->
  exists e, rect_int mul_alongx mul_cut (fun t z => z / t) (fun t _ => / t) p z si sj = Err e.
Proof.
  intros p z si sj H. unfold rect_int, getUL.
  assert (C0 : mul_cut (Finite 0) z = Err EIndex) by (unfold mul_cut; destruct (reqP 0 0); [auto|lra]).
  assert (A0 : mul_alongx (Finite 0) z = None) by (unfold mul_alongx; destruct (reqP 0 0); [auto|lra]).
  destruct (mul_cut (sa sj) z) as [c|e] eqn:E1; [|eexists; reflexivity]. cbn [rbind].
  destruct (mul_cut (sb sj) z) as [d|e] eqn:E2; [|eexists; reflexivity]. cbn [rbind].
  destruct (strictly_in (sa sj) (sb sj) (mul_alongx (sa si) z)) as [i|e] eqn:E3; [|eexists; reflexivity]. cbn [rbind].
  destruct (if i then Ok (sa si) else from_cuts bmin c d (sa si) (sb si)) as [L|e] eqn:E4; [|eexists; reflexivity]. cbn [rbind].
  destruct (strictly_in (sa sj) (sb sj) (mul_alongx (sb si) z)) as [k|e] eqn:E5; [|eexists; reflexivity]. exfalso.
  destruct H as [H|[H|[H|H]]].
  - rewrite H, A0 in E3. discriminate.
  - rewrite H, A0 in E5. discriminate.
  - rewrite H, C0 in E1. discriminate.
  - rewrite H, C0 in E2. discriminate.
Qed.

Definition atF : list segment := [ConstSeg 0 1 (1/2); DiracSeg 1 (1/2)].
Definition atF' : list segment := [DiracSeg 0 (1/2); ConstSeg 0 1 (1/2)].
Definition atG : list segment := [ConstSeg 0 1 1].
Lemma atF_ordered : ordered atF.
Proof. repeat apply SSorted_cons || apply SSorted_nil || apply Forall_nil || apply Forall_cons; split; cbn [sa sb]; first [apply Rle_refl|intros K; injection K; lra]. Qed.
Lemma atF'_ordered : ordered atF'.
Proof. repeat apply SSorted_cons || apply SSorted_nil || apply Forall_nil || apply Forall_cons; split; cbn [sa sb]; first [apply Rle_refl|intros K; injection K; lra]. Qed.
Lemma atF_dens (t : R) : 0 < t < 1 -> dens atF t = 1/2.
Proof. intros T. rewrite (dens_at atF (ConstSeg 0 1 (1/2)) t); simpl; auto; try lra. apply atF_ordered. Qed.
Lemma atG_dens (t : R) : 0 < t < 1 -> dens atG t = 1.
Proof. apply dens_const. Qed.
Lemma atF_out (t : R) : t <= 0 \/ 1 <= t -> dens atF t = 0.
Proof. intros T. unfold dens, atF, sumR. cbn [map fold_right isDirac sa sb]. destruct (Rbar_lt_dec 0 t) as [A|A]; [|lra]. destruct (Rbar_lt_dec t 1) as [B|B]; [|lra]. simpl in A, B. lra. Qed.
Lemma atG_out (t : R) : t <= 0 \/ 1 <= t -> dens atG t = 0.
Proof. intros T. unfold dens, atG, sumR. cbn [map fold_right isDirac sa sb]. destruct (Rbar_lt_dec 0 t) as [A|A]; [|lra]. destruct (Rbar_lt_dec t 1) as [B|B]; [|lra]. simpl in A, B. lra. Qed.
Lemma at_window : has_int (fun t => dens atF t * dens atG (3/2 - t)) m_infty p_infty (1/4).
Proof.
  replace (1/4) with (Q (fun _ => 1/2) (1/2) 1) by (rewrite Q_const; lra). apply (has_int_window _ (fun _ => 1/2)); simpl; auto.
  - apply integrable_const. lra.
  - intros t (A & B). simpl in A, B. rewrite atF_dens, atG_dens by lra. lra.
  - intros t N. simpl in N. destruct (Rle_lt_dec t (1/2)); [rewrite (atG_out (3/2 - t)) by lra; ring|]. rewrite (atF_out t) by lra. ring.
Qed.
Lemma at_rect : rect_int sum_alongx sum_cut (fun t z => z - t) (fun _ _ => 1) (fun x y => dens atF x * dens atG y) (3/2) (ConstSeg 0 1 (1/2)) (ConstSeg 0 1 1) = Ok (1/4).
Proof.
  destruct (rect_ok sum_alongx sum_cut (fun t z => z - t) (fun _ _ => 1) (fun x y => dens atF x * dens atG y) (3/2) (ConstSeg 0 1 (1/2)) (ConstSeg 0 1 1)) as (v & E & H);
    simpl; auto; try lra.
  - apply sum_curve.
  - intros L U LU W. apply (integrable_ext (fun _ => 1/2)).
    + intros t (A & B). destruct (proj1 (W t) (conj A B)) as (I & J). unfold inner in I, J. simpl in I, J. rewrite atF_dens, atG_dens, Rabs_R1 by lra. lra.
    + assert (FL : exists l, L = Finite l).
      { destruct L as [l| |]; [eauto|destruct LU|]. exfalso. destruct (lt_mid m_infty U LU) as (t & _ & T).
        assert (K : Rbar_lt m_infty (Rmin t 0) /\ Rbar_lt (Rmin t 0) U).
        { split; [exact I|]. apply (Rbar_le_lt_trans _ t); auto. simpl. apply Rmin_l. }
        apply W in K. destruct K as ((K & _) & _). simpl in K. pose proof (Rmin_r t 0). lra. }
      assert (FU : exists u, U = Finite u).
      { destruct U as [u| |]; [eauto| |destruct L; destruct LU]. exfalso. destruct (lt_mid L p_infty LU) as (t & T & _).
        assert (K : Rbar_lt L (Rmax t 1) /\ Rbar_lt (Rmax t 1) p_infty).
        { split; [|exact I]. apply (Rbar_lt_le_trans _ t); auto. simpl. apply Rmax_l. }
        apply W in K. destruct K as ((_ & K) & _). simpl in K. pose proof (Rmax_r t 1). lra. }
      destruct FL as (l & ->), FU as (u & ->). apply integrable_const. exact LU.
  - rewrite E. f_equal. eapply has_int_unique; [exact H|]. eapply has_int_ext; [exact at_window|]. intros t. cbv beta. unfold integrand. rewrite Rabs_R1.
    destruct (inner_dec (ConstSeg 0 1 (1/2)) t) as [I|I].
    + rewrite ind_in by auto. destruct (inner_dec (ConstSeg 0 1 1) (3/2 - t)) as [J|J].
      * rewrite ind_in by auto. ring.
      * rewrite (ind_out (ConstSeg 0 1 1)) by auto. rewrite (atG_out (3/2 - t)); [ring|]. unfold inner in J. simpl in J. lra.
    + rewrite ind_out by auto. rewrite (atF_out t); [ring|]. unfold inner in I. simpl in I. lra.
Qed.
Lemma rel_here (z : R) si sj (r r' : R) : cornr op_add si sj r -> cornr op_add si sj r' -> r < z -> z < r' -> pair_relevant op_add z si sj = Ok true.
Proof.
  intros A B C D. rewrite pair_relevant_iff.
  - f_equal. apply relev_true. split; [exists r|exists r']; auto.
  - intros E. apply corners_iff in A. rewrite E in A. destruct A.
Qed.

(** C66: with an atom, the value of the previous pair of pieces is added once more in place of the mass of the atom: X is uniform on
    [0,1] with probability 1/2 and 1 otherwise, Y is uniform on [0,1]; the density of X+Y at 3/2 is 3/4, the value computed is 1/2. *)
Lemma two_vars_atom_refuted_main :
  exists f g (z v v' : R), ordered f /\ Forall wf_seg f /\ ordered g /\ Forall wf_seg g /\ pm f 1 = 1/2 /\
    rbind (findSegList f g z op_add) (fun l => convmodelx sum_alongx sum_cut (fun t z => z - t) (fun _ _ => 1) (fun x y => dens f x * dens g y) l z) = Ok v /\
    sum_density f g z v' /\ v <> v'.
Proof.
  exists atF, atG, (3/2), (1/2), (3/4). splits.
  - apply atF_ordered.
  - repeat constructor; simpl; lra.
  - repeat constructor.
  - repeat constructor; simpl; lra.
  - unfold pm, atF, sumR. cbn. destruct (Req_EM_T 1 1); lra.
  - unfold findSegList, seg_pairs, atF, atG. cbn [flat_map map app filter_res fst snd].
    rewrite (rel_here _ _ _ 0 2) by (first [lra|exists (Finite 0), (Finite 0); splits; simpl; auto; do 2 f_equal; lra|exists (Finite 1), (Finite 1); splits; simpl; auto; do 2 f_equal; lra]).
    rewrite (rel_here _ _ _ 1 2) by (first [lra|exists (Finite 1), (Finite 0); splits; simpl; auto; do 2 f_equal; lra|exists (Finite 1), (Finite 1); splits; simpl; auto; do 2 f_equal; lra]).
    cbn [rbind rmap]. unfold convmodelx. cbn [rect_sum]. unfold isSegment at 1 2. cbn [isDirac negb andb]. fold atF atG. rewrite at_rect. cbn [rmap rbind isSegment isDirac negb andb]. f_equal. lra.
  - exists (1/4). split; [apply at_window|]. unfold atom_sum, atF, atG. cbn [map]. unfold sumR. cbn [fold_right]. fold atG. rewrite atG_dens by lra. lra.
  - lra.
Qed.
(** C66: with the atom in front of the first continuous piece, the variable has no value yet and the program stops. *)
Lemma two_vars_atom_first_refuted_main :
  exists f g (z : R), ordered f /\ Forall wf_seg f /\ ordered g /\ Forall wf_seg g /\ pm f 0 = 1/2 /\
    rbind (findSegList f g z op_add) (fun l => convmodelx sum_alongx sum_cut (fun t z => z - t) (fun _ _ => 1) (fun x y => dens f x * dens g y) l z) = Err EName.
Proof.
  exists atF', atG, (1/2). splits.
  - apply atF'_ordered.
  - repeat constructor; simpl; lra.
  - repeat constructor.
  - repeat constructor; simpl; lra.
  - unfold pm, atF', sumR. cbn. destruct (Req_EM_T 0 0); lra.
  - unfold findSegList, seg_pairs, atF', atG. cbn [flat_map map app filter_res fst snd].
    rewrite (rel_here _ _ _ 0 1) by (first [lra|exists (Finite 0), (Finite 0); splits; simpl; auto; do 2 f_equal; lra|exists (Finite 0), (Finite 1); splits; simpl; auto; do 2 f_equal; lra]).
    rewrite (rel_here _ _ _ 0 2) by (first [lra|exists (Finite 0), (Finite 0); splits; simpl; auto; do 2 f_equal; lra|exists (Finite 1), (Finite 1); splits; simpl; auto; do 2 f_equal; lra]).
    reflexivity.
Qed.
