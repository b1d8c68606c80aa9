(** Functions of two dependent variables: the whole density. *)
From Coq Require Import Reals Lra List Bool Sorted Permutation.
From Coquelicot Require Import Coquelicot.
From Verif Require Import Base Bisect Seg Piecewise PiecewiseSpec PiecewiseFacts PiecewiseFacts2 PiecewiseFacts4 Integral SegInt IntParts IntegralFacts IntPartsFacts Indep IndepSpec AtomFacts Wide IndepAsm PairFacts ConvolFacts ExtrFacts ProdFacts AsmFacts TwoVars TwoVarsSpec TwoVarsFacts.
Import List ListNotations.
Open Scope R_scope.

(** ** the choice of rectangles *)
Definition cornr (op : Rbar -> Rbar -> option Rbar) (si sj : segment) (r : Rbar) : Prop :=
  exists p q, (p = sa si \/ p = sb si) /\ (q = sa sj \/ q = sb sj) /\ op p q = Some r.
Lemma corners_iff op si sj r : In r (corners op si sj) <-> cornr op si sj r.
Proof.
  unfold corners. rewrite in_flat_map. unfold cornr. split.
  - intros ((p, q) & H & E). cbn [fst snd] in E. destruct (op p q) as [r'|] eqn:O; [|destruct E]. destruct E as [<-|[]].
    exists p, q. splits; auto; simpl in H; decompose [or] H; try tauto; match goal with K : (_, _) = (_, _) |- _ => injection K as <- <- end; auto.
  - intros (p & q & Hp & Hq & E). exists (p, q). split; [|cbn [fst snd]; rewrite E; simpl; auto].
    simpl. destruct Hp as [-> | ->], Hq as [-> | ->]; auto.
Qed.
Definition relev (op : Rbar -> Rbar -> option Rbar) (z : R) (si sj : segment) : bool :=
  (existsb (fun r => blt r z) (corners op si sj) && existsb (fun r => blt z r) (corners op si sj))%bool.
Lemma relev_true op z si sj : relev op z si sj = true <-> (exists r, cornr op si sj r /\ Rbar_lt r z) /\ (exists r, cornr op si sj r /\ Rbar_lt z r).
Proof.
  unfold relev. rewrite andb_true_iff, !existsb_exists. split.
  - intros ((y & H1 & H2) & y' & H3 & H4). apply corners_iff in H1. apply corners_iff in H3. apply blt_true in H2. apply blt_true in H4. split; eauto.
  - intros ((y & H1 & H2) & y' & H3 & H4). apply corners_iff in H1. apply corners_iff in H3. apply blt_true in H2. apply blt_true in H4. split; eauto.
Qed.
Lemma pair_relevant_iff op z si sj : corners op si sj <> [] -> pair_relevant op z si sj = Ok (relev op z si sj).
Proof.
  intros N. unfold pair_relevant, relev. destruct (corners op si sj) as [|r rs]; [congruence|]. f_equal. 
  assert (E1 : blt (fold_left bmin rs r) z = existsb (fun y => blt y z) (r :: rs)).
  { apply eq_true_iff_eq. rewrite blt_true, fold_min_lt, existsb_exists. split; intros (y & H1 & H2); exists y; split; auto; apply blt_true; auto. }
  assert (E2 : blt z (fold_left bmax rs r) = existsb (fun y => blt z y) (r :: rs)).
  { apply eq_true_iff_eq. rewrite blt_true, fold_max_lt, existsb_exists. split; intros (y & H1 & H2); exists y; split; auto; apply blt_true; auto. }
  rewrite E1, E2. reflexivity.
Qed.

(** ** break points *)
Lemma two_ub_In op f g y : In y (two_ub op f g) <-> exists a b, is_end f a /\ is_end g b /\ y = match op a b with Some r => r | None => Finite 0 end.
Proof.
  unfold two_ub. rewrite np_unique_In, in_flat_map. split.
  - intros (a & Ha & H). apply in_map_iff in H. destruct H as (b & <- & Hb). exists a, b. splits; auto.
    + apply getBreaks_In in Ha. destruct Ha as (s & Hs & K). exists s. destruct K; auto.
    + apply getBreaks_In in Hb. destruct Hb as (s & Hs & K). exists s. destruct K; auto.
  - intros (a & b & (s & Hs & A) & (t & Ht & B) & ->). exists a. split.
    + apply getBreaks_In. exists s. destruct A; auto.
    + apply in_map_iff. exists b. split; auto. apply getBreaks_In. exists t. destruct B; auto.
Qed.
Lemma corner_ub op f g si sj r : In si f -> In sj g -> cornr op si sj r -> In r (two_ub op f g).
Proof.
  intros Hi Hj (p & q & A & B & E). apply two_ub_In. exists p, q. splits; [exists si; auto|exists sj; auto|]. rewrite E. auto.
Qed.

Section Whole.
Variables (op : Rbar -> Rbar -> option Rbar) (alongx : Rbar -> R -> option Rbar) (cut : Rbar -> R -> res (option Rbar)) (fx jac pdf : R -> R -> R).
Variables (f g : list segment).
Hypotheses (Of : ordered f) (Og : ordered g) (Wf : Forall wf_seg f) (Wg : Forall wf_seg g) (Nf : no_atoms f) (Ng : no_atoms g).

Lemma support_pairs z t : on_support f t * on_support g (fx t z) * integrand fx jac pdf z t =
  sumR (map (fun p => ind (fst p) t * ind (snd p) (fx t z) * integrand fx jac pdf z t) (seg_pairs f g)).
Proof.
  rewrite !on_support_sum by auto. rewrite sumR_pairs. cbn [fst snd].
  set (A := sumR (map (fun s => ind s (fx t z)) g)). set (w := integrand fx jac pdf z t).
  transitivity (sumR (map (fun si => (A * w) * ind si t) f)).
  - rewrite (sumR_scal (A * w)). ring.
  - apply sumR_ext. intros si _.
    rewrite (sumR_ext _ (fun sj => (ind si t * w) * ind sj (fx t z))) by (intros; ring).
    rewrite (sumR_scal (ind si t * w)). fold A. ring.
Qed.

Definition at_point (z : R) : Prop := forall si sj, In si f -> In sj g ->
  monotone_curve alongx cut fx z si sj /\ curve_integrable pdf fx jac z si sj /\ surrounded op fx z si sj.

Lemma value_ok z x : at_point x -> (forall si sj, In si f -> In sj g -> relev op z si sj = relev op x si sj) ->
  exists v, rbind (findSegList f g z op) (fun l => convmodelx alongx cut fx jac pdf l x) = Ok v /\ curve_density f g pdf fx jac x v.
Proof.
  intros A R. rewrite Forall_forall in Wf, Wg.
  assert (NE : forall p, In p (seg_pairs f g) -> pair_relevant op z (fst p) (snd p) = Ok (relev op z (fst p) (snd p))).
  { intros p Hp. apply seg_pairs_In in Hp. destruct Hp as (Hi & Hj). apply pair_relevant_iff.
    destruct (A _ _ Hi Hj) as (_ & _ & (x0 & y0 & r & X & Y & E) & _). intros K.
    assert (H : In r (corners op (fst p) (snd p))) by (apply corners_iff; exists x0, y0; auto). rewrite K in H. destruct H. }
  unfold findSegList. rewrite (filter_res_ok _ (fun p => relev op z (fst p) (snd p))) by auto. cbn [rbind].
  assert (EX : forall p, In p (seg_pairs f g) -> exists v, rect_int alongx cut fx jac pdf x (fst p) (snd p) = Ok v /\
    has_int (fun t => ind (fst p) t * ind (snd p) (fx t x) * integrand fx jac pdf x t) m_infty p_infty v).
  { intros p Hp. apply seg_pairs_In in Hp. destruct Hp as (Hi & Hj). destruct (A _ _ Hi Hj) as (M & CI & _). apply rect_ok; auto. }
  set (v := fun p => match rect_int alongx cut fx jac pdf x (fst p) (snd p) with Ok v => v | Err _ => 0 end).
  assert (EV : forall p, In p (seg_pairs f g) -> rect_int alongx cut fx jac pdf x (fst p) (snd p) = Ok (v p) /\
    has_int (fun t => ind (fst p) t * ind (snd p) (fx t x) * integrand fx jac pdf x t) m_infty p_infty (v p)).
  { intros p Hp. destruct (EX p Hp) as (w & E & H). unfold v. rewrite E. auto. }
  unfold convmodelx. rewrite (rect_sum_ok alongx cut fx jac pdf x v).
  2:{ intros p Hp. apply filter_In in Hp. destruct Hp as (Hp & _). pose proof (EV p Hp) as (E & _). apply seg_pairs_In in Hp. splits; auto; [apply Nf|apply Ng]; tauto. }
  eexists. split; [reflexivity|]. rewrite Rplus_0_l, sumR_filter. unfold curve_density.
  apply (has_int_ext (fun t => sumR (map (fun p => ind (fst p) t * ind (snd p) (fx t x) * integrand fx jac pdf x t) (seg_pairs f g)))).
  2:{ intros t. rewrite <- support_pairs. unfold integrand. ring. }
  apply has_int_sum; simpl; auto. intros p Hp. destruct (EV p Hp) as (E & H). destruct (relev op z (fst p) (snd p)) eqn:RE; auto.
  replace 0 with (v p); auto. apply (has_int_unique _ _ _ _ H). apply has_int_zero; simpl; auto. intros t _.
  apply seg_pairs_In in Hp. destruct Hp as (Hi & Hj).
  destruct (inner_dec (fst p) t) as [I1|I1]; [|rewrite ind_out by auto; ring].
  destruct (inner_dec (snd p) (fx t x)) as [I2|I2]; [|rewrite (ind_out (snd p)) by auto; ring].
  exfalso. destruct (A _ _ Hi Hj) as (_ & _ & _ & S). destruct (S t I1 I2) as (a & b & a' & b' & r & r' & Ha & Hb & Ha' & Hb' & E1 & E2 & L1 & L2).
  rewrite R in RE by auto. assert (K : relev op x (fst p) (snd p) = true); [|congruence]. apply relev_true. split; [exists r|exists r']; split; auto.
  - exists a, b. auto.
  - exists a', b'. auto.
Qed.

Lemma whole_ok eps : (exists a b (r : R), is_end f a /\ is_end g b /\ op a b = Some (Finite r)) ->
  exists q, convmodel op alongx cut fx jac pdf eps f g = Ok q /\ ordered (segs q) /\ Forall wf_seg (segs q) /\ no_atoms (segs q) /\
    (forall x : R, ~ end_value op f g x -> at_point x -> curve_density f g pdf fx jac x (call_vec (segs q) x)) /\
    (forall x : R, ~ end_value op f g x -> ~ In (Finite x) (getBreaks (segs q))).
Proof.
  intros (a0 & b0 & r0 & Ha0 & Hb0 & E0).
  set (F := fun z x => val (rbind (findSegList f g z op) (fun l => convmodelx alongx cut fx jac pdf l x))).
  assert (G : good_ub (two_ub op f g)).
  { split; [apply np_unique_sorted|]. exists r0. apply two_ub_In. exists a0, b0. rewrite E0. auto. }
  destruct (assemble_ok eps F _ G) as (q & Q1 & Q2). destruct (cells_ok F _ G) as (O & W & D & SG). exists q.
  assert (ND : no_atoms (segs q)).
  { intros s Hs. rewrite Q2 in Hs. unfold cells in Hs. apply in_map_iff in Hs. destruct Hs as (ab & <- & Hab). apply (cell_ends F _ ab G Hab). }
  rewrite Q2 in ND |- *. splits; auto.
  - intros x NX A.
    assert (NB : ~ In (Finite x) (two_ub op f g)).
    { intros H. apply two_ub_In in H. destruct H as (a & b & Ha & Hb & E). apply NX. exists a, b. splits; auto. destruct (op a b); auto. injection E; auto. }
    assert (NA : ~ In x (dirac_pos (cells F (two_ub op f g)))) by (rewrite (proj1 (proj2 (cells_good eps F _ G))); intros []).
    destruct (asm_value F _ _ x G O W SG NB NA) as [(a & b & Hab & A1 & B1 & A2 & B2 & E)|(H & E)]; rewrite E.
    + destruct (value_ok (probe a b) x A) as (v & EV & CD); [|unfold F; rewrite EV; exact CD].
      intros si sj Hi Hj. apply pairs_up_In in Hab; [|apply G]. destruct Hab as (_ & _ & _ & N).
      apply eq_true_iff_eq. rewrite !relev_true.
      assert (S : forall r, cornr op si sj r -> (Rbar_lt r (probe a b) <-> Rbar_lt r x) /\ (Rbar_lt (probe a b) r <-> Rbar_lt x r)).
      { intros r C. pose proof (corner_ub op f g si sj r Hi Hj C) as I. assert (K : Rbar_le r a \/ Rbar_le b r).
        { destruct (Rbar_le_lt_dec r a); auto. destruct (Rbar_le_lt_dec b r); auto. exfalso. apply (N r); auto. }
        rewrite !em_le in K. rewrite !em_lt in *. split; split; intros; lra. }
      split; intros ((r & C & L) & r' & C' & L'); (split; [exists r|exists r']; split; auto; apply S; auto).
    + apply (has_int_ext (fun t => sumR (map (fun p => ind (fst p) t * ind (snd p) (fx t x) * integrand fx jac pdf x t) (seg_pairs f g)))).
      2:{ intros t. rewrite <- support_pairs. unfold integrand. ring. }
      apply has_int_zero; simpl; auto. intros t _. transitivity (sumR (map (fun _ : segment * segment => 0) (seg_pairs f g))).
      * apply sumR_ext. intros p Hp. apply seg_pairs_In in Hp. destruct Hp as (Hi & Hj).
        destruct (inner_dec (fst p) t) as [I1|I1]; [|rewrite ind_out by auto; ring].
        destruct (inner_dec (snd p) (fx t x)) as [I2|I2]; [|rewrite (ind_out (snd p)) by auto; ring].
        exfalso. destruct (A _ _ Hi Hj) as (_ & _ & _ & S). destruct (S t I1 I2) as (a & b & a' & b' & r & r' & Ha & Hb & Ha' & Hb' & E1 & E2 & L1 & L2).
        assert (U1 : In r (two_ub op f g)) by (apply (corner_ub op f g (fst p) (snd p)); auto; exists a, b; auto).
        assert (U2 : In r' (two_ub op f g)) by (apply (corner_ub op f g (fst p) (snd p)); auto; exists a', b'; auto).
        destruct H as [H|H]; [pose proof (H r U1)|pose proof (H r' U2)]; rewrite !em_lt in *; lra.
      * induction (seg_pairs f g) as [|p l IH]; auto. cbn [map]. rewrite sumR_cons, IH. ring.
  - intros x NX H. apply getBreaks_In in H. destruct H as (s & Hs & H). unfold cells in Hs. apply in_map_iff in Hs. destruct Hs as (ab & <- & Hab).
    destruct (cell_ends F _ ab G Hab) as (S1 & S2 & _). destruct ab as (a, b). cbn [fst snd] in *. apply pairs_up_In in Hab; [|apply G]. destruct Hab as (Ia & Ib & _).
    assert (I : In (Finite x) (two_ub op f g)) by (rewrite S1, S2 in H; destruct H as [-> | ->]; auto).
    apply two_ub_In in I. destruct I as (a' & b' & Ha & Hb & E). apply NX. exists a', b'. splits; auto. destruct (op a' b'); auto. injection E; auto.
Qed.
End Whole.
