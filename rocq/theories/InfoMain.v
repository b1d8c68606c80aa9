(** Information measures: the main lemmas. *)
From Coq Require Import Reals Lra Lia List Bool Sorted Permutation.
From Coquelicot Require Import Coquelicot.
From Verif Require Import Base Seg Piecewise PiecewiseSpec PiecewiseFacts2 PiecewiseFacts4 Integral IntegralFacts SegInt SegIntSpec SegIntFacts IndepSpec AtomFacts AtomFacts3 CumintFacts OperationFacts CondFacts2 Std StdSpec Info InfoSpec InfoFacts InfoFacts2 InfoFacts3 InfoFacts4.
Import List ListNotations.
Open Scope R_scope.

(** _function__ applies the function to the values on every piece and to the mass of every atom, and keeps all ends. *)
Lemma function_pointwise_main : forall eps fc fd (gd : R -> R) l, 0 <= eps -> admissible eps l ->
  (forall a m, In (DiracSeg a m) l -> fd m = Ok (gd m)) ->
  exists q, function_op eps fc fd l = Ok q /\ admissible eps (segs q) /\ (forall y, is_end (segs q) y <-> is_end l y) /\
    (forall s (x : R), In s l -> isDirac s = false -> Rbar_lt (sa s) x -> Rbar_lt x (sb s) -> dens (segs q) x = fc (sf s x)) /\
    (forall a m, In (DiracSeg a m) l -> pm (segs q) a = gd m).
Proof.
  intros eps fc fd gd l He G FD. destruct (function_ok eps fc fd gd l He G FD) as (q & Q1 & Q2 & Q3 & Q4 & Q5). exists q. splits; auto.
  - intros y. rewrite !is_end_breaks. auto.
  - intros s x Hs D X1 X2. destruct G as (O & W & _).
    assert (NE : ~ is_end l x).
    { destruct (ends_exist [l]) as (P & EP). pose proof (ordered_pairs l P O W EP s Hs D) as K. destruct EP as (SP & EP). apply pairs_up_In in K; auto.
      destruct K as (_ & _ & _ & K). intros E. apply (K x); auto. apply EP. exists l; simpl; auto. }
    rewrite Q4 by auto. rewrite (dens_at l s x) by auto.
    replace (existsb _ l) with true; auto. symmetry. apply existsb_exists. exists s. split; auto. rewrite D.
    destruct (Rbar_lt_dec (sa s) x); [|tauto]. destruct (Rbar_lt_dec x (sb s)); tauto.
  - intros a m Hm. pose proof (sep_nodup eps _ He (proj2 (proj2 G))) as N. pose proof (sep_nodup eps _ He (proj2 (proj2 Q2))) as N'.
    rewrite pm_mass_at, Q5 by auto. apply mass_at_iff in Hm; auto. rewrite Hm. reflexivity.
Qed.

(** entropy: minus the integral of f ln f over every piece, minus the sum of m ln m over the atoms; the value chosen for log 0 does not matter. *)
Lemma entropy_exact_main : forall eps big l, 0 <= eps -> admissible eps l -> pos_atoms l -> entropy eps big l = Ok (sumR (map ent_piece l)).
Proof. exact entropy_pieces. Qed.

(** The entropy of a discrete distribution with n atoms lies between 0 and ln n. *)
Lemma entropy_discrete_bounds_main : forall eps big l, 0 <= eps -> admissible eps l -> (forall s, In s l -> isDirac s = true) ->
  pos_atoms l -> total_mass l = 1 -> exists h, entropy eps big l = Ok h /\ 0 <= h <= ln (INR (length l)).
Proof. exact discrete_entropy. Qed.

(** The entropy of a continuous distribution on [a,b] is at most ln (b-a), the entropy of the uniform distribution. *)
Lemma entropy_interval_bound_main : forall eps big l (a b : R), 0 <= eps -> admissible eps l -> (forall s, In s l -> isDirac s = false) ->
  Forall integrable_piece l -> Forall nonneg_piece l -> total_mass l = 1 ->
  a < b -> (forall s, In s l -> Rbar_le a (sa s) /\ Rbar_le (sb s) b) ->
  (forall s, In s l -> integrable (fun x => eta (sf s x)) (sa s) (sb s)) ->
  exists h, entropy eps big l = Ok h /\ h <= ln (b - a).
Proof. exact interval_entropy. Qed.

(** The entropies of the uniform, normal and exponential distributions are those of the textbooks. *)
Lemma entropy_named_main :
  (forall eps a b : R, a < b -> has_entropy entropy (uniform_init eps a b) (ln (b - a))) /\
  (forall eps mu sigma, 0 < sigma -> has_entropy entropy (normal_init eps mu sigma) (ln (sigma * sqrt (2 * PI)) + 1 / 2)) /\
  (forall eps lmbda, 0 < lmbda -> has_entropy entropy (expo_init eps lmbda) (1 - ln lmbda)).
Proof. split; [exact uniform_entropy|split; [exact normal_entropy|exact expo_entropy]]. Qed.

(** L2 distance: the square root of the integral of the squared difference of the densities plus the squared differences of the atoms. *)
Lemma l2_exact_main : forall eps f g P A, 0 <= eps -> admissible eps f -> admissible eps g -> cross_sep eps f g -> ends_of [f; g] P -> atoms_of [f; g] A ->
  L2_distance eps f g = Ok (sqrt (cut_int (fun x => (dens f x - dens g x) ^ 2) P + sumR (map (fun x => (pm f x - pm g x) ^ 2) A))).
Proof. exact L2_cut. Qed.

(** The L2 distance is symmetric and is zero from a function to itself. *)
Lemma l2_symmetric_main : forall eps f g, 0 <= eps -> admissible eps f -> admissible eps g -> cross_sep eps f g ->
  L2_distance eps f g = L2_distance eps g f /\ L2_distance eps f f = Ok 0.
Proof. intros eps f g He Gf Gg C. split; [apply L2_sym|apply L2_same]; auto. Qed.

(** Kullback-Leibler distance: when g is positive wherever f is and both have their atoms at the same places, the result is the integral of f ln (f/g) plus the sum over the atoms. *)
Lemma kl_exact_main : forall eps big f g P A, 0 <= eps -> admissible eps f -> admissible eps g -> Forall nonneg_piece f -> pos_atoms f -> pos_atoms g ->
  dominated f g -> ends_of [f; g] P -> atoms_of [f] A ->
  KL_distance eps big f g = Ok (cut_int (fun x => rel (dens f x) (dens g x)) P + sumR (map (fun x => rel (pm f x) (pm g x)) A)).
Proof. exact KL_cut. Qed.

(** Gibbs' inequality: under the same conditions the distance between two distributions is not negative; it is zero from a distribution to itself. *)
Lemma kl_gibbs_main : forall eps big f g P, 0 <= eps -> admissible eps f -> admissible eps g -> prob_density f -> prob_density g ->
  dominated f g -> ends_of [f; g] P -> cut_integrable (fun x => rel (dens f x) (dens g x)) P ->
  (exists d, KL_distance eps big f g = Ok d /\ 0 <= d) /\ KL_distance eps big f f = Ok 0.
Proof. intros eps big f g P He Gf Gg Pf Pg D EP CI. split; [eapply gibbs; eauto|]. apply KL_same; auto; apply Pf. Qed.

(** ** where the distance is wrong *)
Definition u02 : list segment := [ConstSeg 0 2 (1 / 2)].
Definition u01 : list segment := [ConstSeg 0 1 1].
Lemma const_good eps (a b c : R) : a < b -> good eps [ConstSeg a b c].
Proof. intros L. split; [|split]; repeat constructor; auto. Qed.
Lemma const_prob (a b c : R) : a < b -> 0 <= c -> c * (b - a) = 1 -> prob_density [ConstSeg a b c].
Proof.
  intros L C E. split; [|split; [|split]].
  - constructor; [|constructor]. simpl. apply integrable_const; auto.
  - constructor; [|constructor]. simpl. auto.
  - intros x m [K|[]]. discriminate.
  - unfold total_mass. cbn [map]. rewrite sumR_cons, mass_Q by (simpl; auto). change (sf (ConstSeg a b c)) with (fun _ : R => c). cbn [sa sb]. rewrite Q_const. simpl. lra.
Qed.
Lemma dens_const (a b c x : R) : a < x < b -> dens [ConstSeg a b c] x = c.
Proof. intros (X1 & X2). rewrite (dens_at _ (ConstSeg a b c)); simpl; auto. repeat constructor. Qed.
Lemma dens_const_out (a b c x : R) : b < x \/ x < a -> dens [ConstSeg a b c] x = 0.
Proof.
  intros X. unfold dens. cbn [map isDirac sa sb]. rewrite sumR_cons. simpl sumR.
  destruct (Rbar_lt_dec a x) as [K|K]; [|lra]. destruct (Rbar_lt_dec x b) as [K'|K']; [|lra]. simpl in K, K'. lra.
Qed.
Lemma covb_const (a b c x : R) : a < x < b -> covb [ConstSeg a b c] x = true.
Proof. intros (X1 & X2). unfold covb. cbn [existsb isDirac sa sb]. destruct (Rbar_lt_dec a x) as [K|K]; [|simpl in K; lra]. destruct (Rbar_lt_dec x b) as [K'|K']; [auto|simpl in K'; lra]. Qed.
Lemma covb_const_out (a b c x : R) : b < x \/ x < a -> covb [ConstSeg a b c] x = false.
Proof. intros X. unfold covb. cbn [existsb isDirac sa sb]. destruct (Rbar_lt_dec a x) as [K|K]; auto. destruct (Rbar_lt_dec x b) as [K'|K']; auto. simpl in K, K'; lra. Qed.

Lemma kl_u02_u01 eps big : 0 <= eps -> KL_distance eps big u02 u01 = Ok (ln (1 / 2)).
Proof.
  intros He.
  assert (E : ends_of [u02; u01] [Finite 0; Finite 1; Finite 2]).
  { split; [repeat constructor; simpl; lra|]. intros y. split.
    - intros [<-|[<-|[<-|[]]]]; [exists u02; split; [simpl; auto|]; exists (ConstSeg 0 2 (1/2)); simpl; auto|exists u01; split; [simpl; auto|]; exists (ConstSeg 0 1 1); simpl; auto|exists u02; split; [simpl; auto|]; exists (ConstSeg 0 2 (1/2)); simpl; auto].
    - intros (l & [<-|[<-|[]]] & s & [<-|[]] & [-> | ->]); simpl; auto. }
  assert (A : atoms_of [u02; u01] []).
  { split; [constructor|]. intros x. split; [intros []|]. intros (l & m & [<-|[<-|[]]] & [K|[]]); discriminate. }
  rewrite (KL_raw eps big u02 u01 [Finite 0; Finite 1; Finite 2] []); auto; try (apply const_good; lra).
  - f_equal. rewrite cut_int_pairs by apply E. cbn [pairs_up map fst snd]. rewrite !sumR_cons. simpl (sumR []).
    rewrite (Q_ext _ (fun _ => 1 / 2 * ln (1 / 2)) 0 1), (Q_ext _ (fun _ => 1 / 2 * ln (1 / 2)) 1 2), !Q_const; try (simpl; lra).
    + intros x (X1 & X2). simpl in X1, X2. unfold log_at, u02, u01. rewrite dens_const, covb_const, covb_const_out by lra. unfold np_log.
      destruct (rltP 0 (1 / 2)); [ring|lra].
    + intros x (X1 & X2). simpl in X1, X2. unfold log_at, u02, u01. rewrite !dens_const, !covb_const by lra. unfold np_log.
      destruct (rltP 0 (1 / 2)); [|lra]. destruct (rltP 0 1); [|lra]. rewrite ln_1. ring.
  - intros a m b k [K|[]]. discriminate.
  - intros a m [K|[]]. discriminate.
  - intros a m [K|[]]. discriminate.
Qed.
(** The Kullback-Leibler distance is wrong when g has no piece where f is positive: g is taken to be 1 there. Between two uniform distributions it comes out negative, ln (1/2), where the true value is infinite. *)
Lemma kl_support_refuted_main : exists f g d, forall eps big, 0 <= eps ->
  admissible eps f /\ admissible eps g /\ prob_density f /\ prob_density g /\ KL_distance eps big f g = Ok d /\ d < 0.
Proof.
  exists u02, u01, (ln (1 / 2)). intros eps big He.
  splits; try (apply const_good; lra); try (apply const_prob; lra).
  2:{ rewrite <- ln_1. apply ln_increasing; lra. }
  apply kl_u02_u01; auto.
Qed.

Definition u01z : list segment := [ConstSeg 0 1 1; ConstSeg 1 2 0].
Lemma dens_u01z (x : R) : dens u01z x = dens u01 x.
Proof.
  unfold u01z, u01, dens. cbn [map]. rewrite !sumR_cons. simpl (sumR []). cbn [isDirac sa sb sf].
  destruct (Rbar_lt_dec 1 x), (Rbar_lt_dec x 2); ring.
Qed.
Lemma covb_u01z (x : R) : 0 < x < 1 \/ 1 < x < 2 -> covb u01z x = true.
Proof.
  intros X. unfold covb, u01z. cbn [existsb isDirac sa sb].
  destruct (Rbar_lt_dec 0 x) as [K|K]; [|simpl in K; lra]. destruct (Rbar_lt_dec x 1) as [K'|K']; [auto|]. destruct (Rbar_lt_dec 1 x) as [J|J]; [|simpl in J, K'; lra].
  destruct (Rbar_lt_dec x 2) as [J'|J']; [auto|simpl in J'; lra].
Qed.
(** The distance depends on how a distribution is written: with an explicit piece of density zero on [1,2] the uniform distribution on [0,1] is at distance ln (1/2) + big/2 from the one on [0,2] (big stands for infinity), without it at distance ln (1/2). *)
Lemma kl_zero_piece_refuted_main : exists f g h, (forall x, dens g x = dens h x) /\ forall eps big, 0 <= eps ->
  admissible eps f /\ admissible eps g /\ admissible eps h /\ prob_density f /\ prob_density g /\ prob_density h /\
  KL_distance eps big f g = Ok (ln (1 / 2)) /\ KL_distance eps big f h = Ok (ln (1 / 2) + big / 2).
Proof.
  exists u02, u01, u01z. split; [intros x; rewrite dens_u01z; auto|]. intros eps big He.
  assert (Gz : good eps u01z).
  { split; [|split]; [constructor; [constructor; constructor|constructor; [split; simpl; [lra|intros H; injection H; lra]|constructor]]|repeat constructor; simpl; lra|repeat constructor]. }
  splits; try (apply const_good; lra); try (apply const_prob; lra); auto.
  - split; [|split; [|split]].
    + constructor; [|constructor; [|constructor]]; simpl; apply integrable_const; lra.
    + repeat constructor; simpl; intros; lra.
    + intros x m [K|[K|[]]]; discriminate.
    + unfold total_mass, u01z. cbn [map mass].
      assert (K : forall f a b, Rbar_lt a b -> RInt_gen (V := R_CompleteNormedModule) f (at_r a) (at_l b) = Q f a b) by (intros; symmetry; apply Q_RInt_gen; auto).
      rewrite !sumR_cons, !K by (simpl; auto; lra). simpl (sumR []). cbn [sa sb]. change (sf (ConstSeg 0 1 1)) with (fun _ : R => 1). change (sf (ConstSeg 1 2 0)) with (fun _ : R => 0).
      rewrite !Q_const. lra.
  - apply kl_u02_u01; auto.
  - assert (E : ends_of [u02; u01z] [Finite 0; Finite 1; Finite 2]).
    { split; [repeat constructor; simpl; lra|]. intros y. split.
      - intros [<-|[<-|[<-|[]]]]; [exists u02; split; [simpl; auto|]; exists (ConstSeg 0 2 (1/2)); simpl; auto|exists u01z; split; [simpl; auto|]; exists (ConstSeg 0 1 1); simpl; auto|exists u02; split; [simpl; auto|]; exists (ConstSeg 0 2 (1/2)); simpl; auto].
      - intros (l & [<-|[<-|[]]] & s & Hs & Ey); [destruct Hs as [<-|[]]|destruct Hs as [<-|[<-|[]]]]; destruct Ey as [-> | ->]; simpl; auto. }
    assert (A : atoms_of [u02; u01z] []).
    { split; [constructor|]. intros x. split; [intros []|]. intros (l & m & [<-|[<-|[]]] & K); [destruct K as [K|[]]|destruct K as [K|[K|[]]]]; discriminate. }
    rewrite (KL_raw eps big u02 u01z [Finite 0; Finite 1; Finite 2] []); auto; try (apply const_good; lra).
    + f_equal. rewrite cut_int_pairs by apply E. cbn [pairs_up map fst snd]. rewrite !sumR_cons. simpl (sumR []).
      rewrite (Q_ext _ (fun _ => 1 / 2 * ln (1 / 2)) 0 1), (Q_ext _ (fun _ => 1 / 2 * (ln (1 / 2) + big)) 1 2), !Q_const; try (simpl; lra); try lra.
      * intros x (X1 & X2). simpl in X1, X2. unfold log_at. rewrite dens_u01z. unfold u02 at 1 2 3, u01. rewrite dens_const, dens_const_out, covb_const by lra.
        rewrite covb_u01z by lra. unfold np_log. destruct (rltP 0 (1 / 2)); [|lra]. destruct (rltP 0 0); [lra|]. destruct (reqP 0 0); [ring|lra].
      * intros x (X1 & X2). simpl in X1, X2. unfold log_at. rewrite dens_u01z. unfold u02, u01. rewrite !dens_const, !covb_const by lra.
        rewrite covb_u01z by lra. unfold np_log. destruct (rltP 0 (1 / 2)); [|lra]. destruct (rltP 0 1); [|lra]. rewrite ln_1. ring.
    + intros a m b k [K|[]]. discriminate.
    + intros a m [K|[]]. discriminate.
    + intros a m [K|[K|[]]]; discriminate.
Qed.

Definition d0 : list segment := [DiracSeg 0 1].
Definition d01 : list segment := [DiracSeg 0 (1 / 2); DiracSeg 1 (1 / 2)].

(** It is also wrong when g has an atom where f has none: the logarithm of its mass is added. The distance from a one-point distribution to a fair coin comes out 0, though the distributions differ and the true value is ln 2. *)
Lemma kl_atoms_refuted_main : exists f g, forall eps big, 0 <= eps < 1 ->
  admissible eps f /\ admissible eps g /\ prob_density f /\ prob_density g /\ KL_distance eps big f g = Ok 0 /\
  (exists x, pm f x <> pm g x) /\ (forall A, atoms_of [f] A -> sumR (map (fun x => rel (pm f x) (pm g x)) A) = ln 2).
Proof.
  exists d0, d01. intros eps big (He & He1).
  assert (G0 : good eps d0) by (split; [|split]; repeat constructor).
  assert (G1 : good eps d01).
  { split; [|split]; repeat constructor; simpl; try lra; try (intros H; injection H; lra). replace (0 - 1) with (- (1)) by ring. rewrite Rabs_Ropp, Rabs_R1. lra. }
  assert (P0 : forall z, pm d0 z = if Req_EM_T 0 z then 1 else 0) by (intros z; unfold pm, d0; cbn [map]; rewrite sumR_cons; simpl (sumR []); ring).
  assert (P1 : forall z, pm d01 z = (if Req_EM_T 0 z then 1 / 2 else 0) + (if Req_EM_T 1 z then 1 / 2 else 0)) by (intros z; unfold pm, d01; cbn [map]; rewrite !sumR_cons; simpl (sumR []); ring).
  assert (N0 : pos_atoms d0) by (intros x m [K|[]]; injection K as <- <-; lra).
  assert (N1 : pos_atoms d01) by (intros x m [K|[K|[]]]; injection K as <- <-; lra).
  splits; auto.
  - split; [|split; [|split]]; auto; [repeat constructor|repeat constructor; simpl; lra|unfold total_mass, d0; cbn [map mass]; rewrite sumR_cons; simpl (sumR []); lra].
  - split; [|split; [|split]]; auto; [repeat constructor|repeat constructor; simpl; lra|unfold total_mass, d01; cbn [map mass]; rewrite !sumR_cons; simpl (sumR []); lra].
  - rewrite (KL_raw eps big d0 d01 [Finite 0; Finite 1] [0; 1]); auto.
    + f_equal. rewrite cut_int_pairs by (repeat constructor; simpl; lra). cbn [pairs_up map fst snd]. rewrite !sumR_cons. simpl (sumR []).
      rewrite Q_zero; [|simpl; lra|intros x (X1 & X2); unfold dens, d0; cbn [map isDirac]; rewrite sumR_cons; simpl (sumR []); ring].
      assert (B01 : beq 0 1 = false) by (destruct (beqP 0 1) as [E|]; auto; injection E; lra).
      assert (B10 : beq 1 0 = false) by (destruct (beqP 1 0) as [E|]; auto; injection E; lra).
      unfold mass_at, getDirac, d0, d01. simpl. rewrite B01, ?B10, !(proj2 (beq_true _ _)) by reflexivity. cbn [option_map smass comb ov].
      rewrite ln_1. replace (1 / 2) with (/ 2) by lra. rewrite ln_Rinv by lra. ring.
    + intros a m b k [K|[]] [K'|[K'|[]]]; injection K as <- <-; injection K' as <- <-; [left; auto|right]. replace (0 - 1) with (- (1)) by ring. rewrite Rabs_Ropp, Rabs_R1. lra.
    + split; [repeat constructor; simpl; lra|]. intros y. split.
      * intros [<-|[<-|[]]]; [exists d0; split; [simpl; auto|]; exists (DiracSeg 0 1); simpl; auto|exists d01; split; [simpl; auto|]; exists (DiracSeg 1 (1/2)); simpl; auto].
      * intros (l & [<-|[<-|[]]] & s & Hs & Hy); unfold d0, d01 in Hs; simpl in Hs; [destruct Hs as [<-|[]]|destruct Hs as [<-|[<-|[]]]]; destruct Hy as [-> | ->]; simpl; auto.
    + split; [repeat constructor; simpl; lra|]. intros x. split.
      * intros [<-|[<-|[]]]; [exists d0, 1; simpl; auto|exists d01, (1/2); simpl; auto].
      * intros (l & m & [<-|[<-|[]]] & K); unfold d0, d01 in K; simpl in K; [destruct K as [K|[]]|destruct K as [K|[K|[]]]]; injection K as <- <-; simpl; auto.
  - exists 1. rewrite P0, P1. destruct (Req_EM_T 0 1); [lra|]. destruct (Req_EM_T 1 1); lra.
  - intros A (NA & EA).
    assert (A = [0]) as ->.
    { assert (H0 : In 0 A) by (apply EA; exists d0, 1; simpl; auto).
      assert (H1 : forall x, In x A -> x = 0). { intros x Hx. apply EA in Hx. destruct Hx as (l & m & [<-|[]] & [K|[]]). injection K; auto. }
      destruct A as [|a [|b A]]; [destruct H0|rewrite (H1 a); simpl; auto|]. exfalso. inversion NA as [|? ? NI _]; subst. apply NI. rewrite (H1 a), (H1 b); simpl; auto. }
    cbn [map]. rewrite sumR_cons. simpl (sumR []). rewrite P0, P1. destruct (Req_EM_T 0 0); [|lra]. destruct (Req_EM_T 1 0); [lra|].
    unfold rel. destruct (Rlt_dec 0 1); [|lra]. replace (1 / (1 / 2 + 0)) with 2 by field. ring.
Qed.
