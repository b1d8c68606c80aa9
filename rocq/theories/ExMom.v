(** Concrete instances for the theorems about moments. *)
From Coq Require Import Reals Lra Lia List Bool.
From Coquelicot Require Import Coquelicot.
From Verif Require Import Base Seg Piecewise PiecewiseSpec Integral IntegralFacts SegIntSpec SegIntFacts IndepSpec AtomFacts AtomFacts3 Indep Transform TransformSpec TransformFacts MixSpec Mix MomSpec Mom MomFacts3 MomFacts4 MomFacts5 MomMain PropMom.
Import List ListNotations.
Open Scope R_scope.

(** half of the mass uniform on (0,1), the other half at 2 *)
Definition exL : list segment := [ConstSeg 0 1 (1/2); DiracSeg 2 (1/2)].
Definition noerr : (R -> R) -> Rbar -> Rbar -> R := fun _ _ _ => 0.

Lemma poly_int (F f : R -> R) (a b : R) : a < b -> (forall x : R, is_derive F x (f x)) -> (forall x, continuous f x) -> integrable f a b /\ Q f a b = F b - F a.
Proof.
  intros L D C. assert (I0 : is_RInt f a b (F b - F a)) by (apply (is_RInt_derive F f); auto).
  destruct (proper_int f a b L) as (A & B); [eexists; exact I0|]. split; auto. rewrite B. apply (is_RInt_unique f a b); auto.
Qed.
Lemma ex_id : integrable (fun x => x * sf (ConstSeg 0 1 (1/2)) x) 0 1 /\ Q (fun x => x * sf (ConstSeg 0 1 (1/2)) x) 0 1 = 1/4.
Proof.
  destruct (poly_int (fun x => x ^ 2 / 4) (fun x => x * (1/2)) 0 1) as (A & B); [lra| | |].
  - intros x. auto_derive; auto. field.
  - intros x. apply (ex_derive_continuous (fun x => x * (1/2))). auto_derive; auto.
  - split; auto. simpl in *. rewrite B. field.
Qed.
Lemma ex_sq c : integrable (fun x => (x - c) ^ 2 * sf (ConstSeg 0 1 (1/2)) x) 0 1 /\ Q (fun x => (x - c) ^ 2 * sf (ConstSeg 0 1 (1/2)) x) 0 1 = ((1 - c) ^ 3 + c ^ 3) / 6.
Proof.
  destruct (poly_int (fun x => (x - c) ^ 3 / 6) (fun x => (x - c) ^ 2 * (1/2)) 0 1) as (A & B); [lra| | |].
  - intros x. auto_derive; auto. field.
  - intros x. apply (ex_derive_continuous (fun x => (x - c) ^ 2 * (1/2))). auto_derive; auto.
  - split; auto. simpl in *. rewrite B. field.
Qed.
Lemma ex_wf : Forall wf_seg exL.
Proof. repeat constructor; simpl; lra. Qed.
Lemma ex_hi : Forall has_int exL.
Proof. constructor; [|constructor; [|constructor]]; intros D; [|discriminate]. apply integrable_const; lra. Qed.
Lemma ex_nn : Forall nonneg_piece exL.
Proof. repeat constructor; simpl; intros; lra. Qed.
Lemma ex_total : pprob exL m_infty p_infty = 1.
Proof.
  pose proof (expect_const 1 exL ex_wf ex_hi) as K. rewrite expect_contrib in K. cbn [exL map] in K. rewrite !AtomFacts.sumR_cons in K.
  rewrite contrib_Q in K by (simpl; auto; lra). rewrite (Q_ext _ (fun _ => 1/2)) in K by (simpl; intros; lra). cbn [sa sb] in K. rewrite Q_const in K. simpl in K. lra.
Qed.
Lemma ex_prob : prob_law exL.
Proof. repeat split; auto using ex_wf, ex_hi, ex_nn, ex_total. Qed.
Lemma ex_h1 : has_expect (fun x => x) exL.
Proof. intros s [<-|[<-|[]]] D; [|discriminate]. apply ex_id. Qed.
Lemma ex_h2 : has_expect (fun x => x ^ 2) exL.
Proof. intros s [<-|[<-|[]]] D; [|discriminate]. apply (integrable_ext (fun x => (x - 0) ^ 2 * sf (ConstSeg 0 1 (1/2)) x)); [intros; ring|]. apply ex_sq. Qed.
Lemma ex_ready : mean_ready exL.
Proof.
  split; [exact ex_wf|]. split; [exact ex_hi|]. split; [exact ex_nn|]. split; [|exact ex_h1].
  constructor; [|constructor; [|constructor]]; intros x D X; [|discriminate]. apply continuous_const.
Qed.
Lemma ex_E1 : expect (fun x => x) exL = 5/4.
Proof.
  rewrite expect_contrib. cbn [exL map]. rewrite !AtomFacts.sumR_cons. rewrite contrib_Q by (simpl; auto; lra). cbn [sa sb].
  rewrite (proj2 ex_id). simpl. lra.
Qed.

(** the mean is 5/4 and the variance 29/48 *)
Example ex_mean : mean noerr exL = Num (5/4) /\ var noerr exL = Num (29/48).
Proof.
  destruct (moments_defined_main noerr exL (fun _ _ _ => eq_refl) ex_wf) as (M & V & _). rewrite ex_E1 in M, V. split; auto.
  rewrite V. f_equal. rewrite expect_contrib. cbn [exL map]. rewrite !AtomFacts.sumR_cons. rewrite contrib_Q by (simpl; auto; lra). cbn [sa sb].
  rewrite (proj2 (ex_sq (5/4))). simpl. lra.
Qed.
Example ex_law : law_mean (pprob exL) (5/4).
Proof. apply (mean_exact noerr); [exact ex_ready|apply ex_mean]. Qed.
Example ex_consistent : sqrt (29/48) ^ 2 = 29/48 /\ std noerr exL = Num (sqrt (29/48)).
Proof. destruct (moments_consistent noerr exL (5/4) (29/48) ex_prob ex_h1 ex_h2) as (_ & _ & (A & B) & _); try apply ex_mean. split; auto. Qed.
Example ex_cheb : 1 ^ 2 * (pprob exL m_infty (Finite (5/4 - 1)) + pprob exL (Finite (5/4 + 1)) p_infty) <= 29/48.
Proof. apply (chebyshev noerr); auto using ex_prob, ex_h1, ex_h2; try apply ex_mean. lra. Qed.

(** a fair coin: sum and product of two *)
Definition exC : list segment := [DiracSeg 0 (1/2); DiracSeg 1 (1/2)].
Lemma exC_prob : prob_law exC /\ discrete exC.
Proof.
  split; [|repeat constructor]. repeat split.
  - repeat constructor.
  - constructor; [|constructor; [|constructor]]; intros D; discriminate.
  - repeat constructor; simpl; lra.
  - unfold pprob. simpl. repeat match goal with |- context [Rbar_lt_dec ?a ?b] => destruct (Rbar_lt_dec a b); simpl in *; try tauto end. lra.
Qed.
Lemma exC_sep : values_sep (1/1000) Rplus exC exC /\ values_sep (1/1000) Rmult exC exC.
Proof.
  split; intros x m y k x' m' y' k' A B C D; simpl in *;
  repeat match goal with H : _ \/ _ |- _ => destruct H as [H|H] | H : False |- _ => destruct H end;
  repeat match goal with H : DiracSeg _ _ = DiracSeg _ _ |- _ => injection H as <- <- end;
  try (left; lra); right; try (rewrite Rabs_right; lra); rewrite Rabs_left; lra.
Qed.
Example ex_coins : exists q, convdiracs (1/1000) Rplus exC exC = Ok q /\ mean noerr (segs q) = Num (1/2 + 1/2) /\ var noerr (segs q) = Num (1/4 + 1/4).
Proof.
  destruct (convdiracs_ok (1/1000) Rplus exC exC) as (q & _ & E & _); [lra|]. exists q. split; auto. destruct exC_prob as (P & D).
  destruct (moments_discrete noerr (1/1000) exC exC q) as (S & _); auto; [lra|].
  destruct (S (proj1 exC_sep) E) as (m & m' & v & v' & M & M' & V & V' & A & B).
  destruct (moments_defined_main noerr exC (fun _ _ _ => eq_refl)) as (K1 & K2 & _); [apply P|].
  assert (X1 : expect (fun x => x) exC = 1/2) by (unfold expect; simpl; lra). rewrite X1 in K1, K2.
  assert (X2 : expect (fun x => (x - 1/2) ^ 2) exC = 1/4) by (unfold expect; simpl; lra). rewrite X2 in K2.
  rewrite M in K1. rewrite M in M'. rewrite V in K2. rewrite V in V'. injection K1 as ->. injection M' as <-. injection K2 as ->. injection V' as <-. auto.
Qed.

(** -2 X + 1 for the X above *)
Lemma ex_powers : forall k, (1 <= k <= 4)%nat -> forall c, has_expect (fun x => (x - c) ^ k) exL.
Proof.
  intros k _ c s [<-|[<-|[]]] D; [|discriminate]. cbn [sa sb].
  apply (proper_int (fun x => (x - c) ^ k * sf (ConstSeg 0 1 (1 / 2)) x) 0 1); [lra|].
  apply (ex_RInt_continuous (V := R_CompleteNormedModule)). intros x _. apply (ex_derive_continuous (fun x => (x - c) ^ k * (1/2))). auto_derive; auto.
Qed.
Lemma ex_ordered : ordered exL.
Proof. repeat constructor; simpl; try lra. intros E. injection E. lra. Qed.
Lemma ex_isep : image_sep (1/1000) (affine 1 (-2)) exL.
Proof. repeat constructor. Qed.
Example ex_affine : exists q, copyShiftedAndScaled (1/1000) exL 1 (-2) = Ok q /\
  forall m' v', mean noerr (segs q) = Num m' -> var noerr (segs q) = Num v' -> m' = -2 * (5/4) + 1 /\ v' = (-2) ^ 2 * (29/48).
Proof.
  destruct (moments_affine noerr (1/1000) 1 (-2) exL) as (q & E & K); auto using ex_ordered, ex_prob, ex_isep, ex_powers; [lra|].
  exists q. split; auto. intros m' v' M V. destruct (K (5/4) m' (29/48) v') as (A & B & _); auto; apply ex_mean.
Qed.
Example ex_in_range : forall a b, pw_range exL = Ok (a, b) -> Rbar_le a (5/4) /\ Rbar_le (5/4) b.
Proof. intros a b R0. apply (mean_in_range noerr exL); auto using ex_prob, ex_h1; apply ex_mean. Qed.

(** one third of the X above and two thirds of the coin *)
Lemma ex_comps : Forall (component (1/1000)) [exL; exC].
Proof.
  constructor; [|constructor; [|constructor]].
  - split; [exact ex_ordered|]. split; [exact ex_wf|]. split; [|exact ex_hi]. repeat constructor.
  - split; [|split; [|split]]; try apply exC_prob.
    + repeat constructor; simpl; try lra. intros E. injection E. lra.
    + repeat constructor. simpl. rewrite Rabs_left; lra.
Qed.
Lemma ex_apart : forall c d, In c [exL; exC] -> In d [exL; exC] -> cross_sep (1/1000) c d.
Proof.
  intros c d [<-|[<-|[]]] [<-|[<-|[]]] a m b k A B; simpl in A, B;
  repeat match goal with H : _ \/ _ |- _ => destruct H as [H|H] | H : False |- _ => destruct H end; try discriminate;
  repeat match goal with H : DiracSeg _ _ = DiracSeg _ _ |- _ => injection H as <- <- end;
  first [left; lra | right; rewrite Rabs_right; lra | right; rewrite Rabs_left; lra].
Qed.
Lemma exC_ready : mean_ready exC.
Proof.
  destruct exC_prob as ((W & HI & N & _) & D). split; [exact W|]. split; [exact HI|]. split; [exact N|]. split; [|apply discrete_has; auto].
  constructor; [|constructor; [|constructor]]; intros x X; discriminate.
Qed.
Example ex_mix_mean : exists q, mix_pdf (1/1000) [1/3; 2/3] [exL; exC] = Ok q /\ mean noerr (segs q) = Num (3/4).
Proof.
  destruct (MixMain.mix_exact_main (1/1000) [1/3; 2/3] [exL; exC]) as (q & E & (_ & W & _) & _); auto using ex_comps, ex_apart; [lra|discriminate|].
  exists q. split; auto. destruct (moments_defined_main noerr (segs q) (fun _ _ _ => eq_refl) W) as (M & _). rewrite M. f_equal.
  rewrite (mean_mixture noerr (1/1000) [1/3; 2/3] [exL; exC] [5/4; 1/2] q (expect (fun x => x) (segs q))); auto using ex_comps, ex_apart; try lra.
  - simpl. lra.
  - repeat constructor; lra.
  - constructor; [exact ex_ready|]. constructor; [exact exC_ready|constructor].
  - constructor; [apply ex_mean|]. constructor; [|constructor].
    destruct (moments_defined_main noerr exC (fun _ _ _ => eq_refl)) as (K1 & _); [apply exC_prob|]. rewrite K1. f_equal. unfold expect; simpl; lra.
Qed.
