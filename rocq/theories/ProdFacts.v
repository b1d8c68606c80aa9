(** Pairs of pieces for products, and the values computed from them. *)
From Coq Require Import Reals Lra Lia List Bool Sorted Permutation.
From Coquelicot Require Import Coquelicot.
From Verif Require Import Base Bisect Seg Piecewise PiecewiseSpec PiecewiseFacts Integral IntegralFacts SegInt SegIntSpec IntParts IntPartsFacts Indep IndepSpec AtomFacts AtomFacts2 AtomFacts3 ConvolFacts PairFacts ExtrFacts QuotFacts.
Import List ListNotations.
Open Scope R_scope.

Ltac inj_r E := match type of E with Some ?u = Some ?r => let K := fresh in assert (K : r = u) by congruence; subst r; clear E end.
(** ** Corners *)
Definition corner (a1 b1 a2 b2 r : Rbar) : Prop := exists p q, (p = a1 \/ p = b1) /\ (q = a2 \/ q = b2) /\ op_mul p q = Some r.
Definition rel4 (a1 b1 a2 b2 : Rbar) (z : R) : Prop := (exists r, corner a1 b1 a2 b2 r /\ Rbar_lt r z) /\ (exists r, corner a1 b1 a2 b2 r /\ Rbar_lt z r).

Lemma corners_In si sj r : In r (corners op_mul si sj) <-> corner (sa si) (sb si) (sa sj) (sb sj) r.
Proof.
  unfold corners. rewrite in_flat_map. unfold corner. split.
  - intros ((p, q) & H & E). cbn [fst snd] in E. destruct (op_mul p q) as [r'|] eqn:O; [|destruct E]. destruct E as [<-|[]].
    exists p, q. splits; auto; simpl in H; decompose [or] H; try tauto; match goal with K : (_, _) = (_, _) |- _ => injection K as <- <- end; auto.
  - intros (p & q & Hp & Hq & E). exists (p, q). split; [|cbn [fst snd]; rewrite E; simpl; auto].
    simpl. destruct Hp as [-> | ->], Hq as [-> | ->]; auto.
Qed.
Lemma fold_min_lt l : forall r (z : Rbar), Rbar_lt (fold_left bmin l r) z <-> exists y, In y (r :: l) /\ Rbar_lt y z.
Proof.
  induction l as [|y l IH]; intros r z; simpl.
  - split; [eauto|]. intros (y & [<-|[]] & H). auto.
  - rewrite IH. simpl. split.
    + intros (u & [<-|H] & L); [|eauto]. unfold bmin in L. destruct (bltP y r); eauto.
    + intros (u & [<-|[<-|H]] & L); [| |eauto].
      * exists (bmin r y). split; auto. unfold bmin. destruct (bltP y r) as [K|K]; auto. eapply Rbar_lt_trans; eauto.
      * exists (bmin r y). split; auto. unfold bmin. destruct (bltP y r) as [K|K]; auto. apply Rbar_not_lt in K. eapply Rbar_le_lt_trans; eauto.
Qed.
Lemma fold_max_lt l : forall r (z : Rbar), Rbar_lt z (fold_left bmax l r) <-> exists y, In y (r :: l) /\ Rbar_lt z y.
Proof.
  induction l as [|y l IH]; intros r z; simpl.
  - split; [eauto|]. intros (y & [<-|[]] & H). auto.
  - rewrite IH. simpl. split.
    + intros (u & [<-|H] & L); [|eauto]. unfold bmax in L. destruct (bltP r y); eauto.
    + intros (u & [<-|[<-|H]] & L); [| |eauto].
      * exists (bmax r y). split; auto. unfold bmax. destruct (bltP r y) as [K|K]; auto. eapply Rbar_lt_trans; eauto.
      * exists (bmax r y). split; auto. unfold bmax. destruct (bltP r y) as [K|K]; auto. apply Rbar_not_lt in K. eapply Rbar_lt_le_trans; eauto.
Qed.
Definition prodrel (z : R) (si sj : segment) : bool :=
  (existsb (fun r => blt r z) (corners op_mul si sj) && existsb (fun r => blt z r) (corners op_mul si sj))%bool.
Lemma prodrel_true z si sj : prodrel z si sj = true <-> rel4 (sa si) (sb si) (sa sj) (sb sj) z.
Proof.
  unfold prodrel, rel4. rewrite andb_true_iff, !existsb_exists. split.
  - intros ((y & H1 & H2) & y' & H3 & H4). apply corners_In in H1. apply corners_In in H3. apply blt_true in H2. apply blt_true in H4. split; eauto.
  - intros ((y & H1 & H2) & y' & H3 & H4). apply corners_In in H1. apply corners_In in H3. apply blt_true in H2. apply blt_true in H4. split; eauto.
Qed.
Lemma pair_relevant_prod z si sj : corners op_mul si sj <> [] -> pair_relevant op_mul z si sj = Ok (prodrel z si sj).
Proof.
  intros N. unfold pair_relevant, prodrel. destruct (corners op_mul si sj) as [|r rs]; [congruence|]. f_equal. 
  assert (E1 : blt (fold_left bmin rs r) z = existsb (fun y => blt y z) (r :: rs)).
  { apply eq_true_iff_eq. rewrite blt_true, fold_min_lt, existsb_exists. split; intros (y & H1 & H2); exists y; split; auto; apply blt_true; auto. }
  assert (E2 : blt z (fold_left bmax rs r) = existsb (fun y => blt z y) (r :: rs)).
  { apply eq_true_iff_eq. rewrite blt_true, fold_max_lt, existsb_exists. split; intros (y & H1 & H2); exists y; split; auto; apply blt_true; auto. }
  rewrite E1, E2. reflexivity.
Qed.

(** ** Reflections *)
Lemma op_mul_opp_l p q : op_mul (Rbar_opp p) q = option_map Rbar_opp (op_mul p q).
Proof.
  assert (E : forall x : R, req (- x) 0 = req x 0) by (intros x; destruct (reqP x 0), (reqP (- x) 0); auto; exfalso; lra).
  destruct p as [p| |], q as [q| |]; unfold op_mul; cbn [Rbar_opp]; try rewrite E;
  try (destruct (reqP p 0)); try (destruct (reqP q 0)); cbn [option_map]; try reflexivity; f_equal;
  try (rewrite <- Rbar_mult_opp_l; reflexivity).
Qed.
Lemma op_mul_opp_r p q : op_mul p (Rbar_opp q) = option_map Rbar_opp (op_mul p q).
Proof.
  assert (E : forall x : R, req (- x) 0 = req x 0) by (intros x; destruct (reqP x 0), (reqP (- x) 0); auto; exfalso; lra).
  destruct p as [p| |], q as [q| |]; unfold op_mul; cbn [Rbar_opp]; try rewrite E;
  try (destruct (reqP p 0)); try (destruct (reqP q 0)); cbn [option_map]; try reflexivity; f_equal;
  try (rewrite <- Rbar_mult_opp_r; reflexivity).
Qed.
Lemma opp_lt a b : Rbar_lt (Rbar_opp a) (Rbar_opp b) <-> Rbar_lt b a.
Proof. destruct a, b; simpl; try tauto. split; lra. Qed.
Lemma opp_le a b : Rbar_le (Rbar_opp a) (Rbar_opp b) <-> Rbar_le b a.
Proof. destruct a, b; simpl; try tauto. split; lra. Qed.
Lemma corner_l a1 b1 a2 b2 r : corner (Rbar_opp b1) (Rbar_opp a1) a2 b2 (Rbar_opp r) <-> corner a1 b1 a2 b2 r.
Proof.
  assert (I : forall x y, Rbar_opp x = y -> x = Rbar_opp y) by (intros x y <-; rewrite Rbar_opp_involutive; auto).
  split; intros (p & q & Hp & Hq & E); exists (Rbar_opp p), q; (split; [|split; [auto|]]).
  - destruct Hp as [-> | ->]; rewrite Rbar_opp_involutive; auto.
  - rewrite op_mul_opp_l, E. simpl. rewrite Rbar_opp_involutive. auto.
  - destruct Hp as [-> | ->]; auto.
  - rewrite op_mul_opp_l, E. auto.
Qed.
Lemma corner_r a1 b1 a2 b2 r : corner a1 b1 (Rbar_opp b2) (Rbar_opp a2) (Rbar_opp r) <-> corner a1 b1 a2 b2 r.
Proof.
  split; intros (p & q & Hp & Hq & E); exists p, (Rbar_opp q); (split; [auto|split]).
  - destruct Hq as [-> | ->]; rewrite Rbar_opp_involutive; auto.
  - rewrite op_mul_opp_r, E. simpl. rewrite Rbar_opp_involutive. auto.
  - destruct Hq as [-> | ->]; auto.
  - rewrite op_mul_opp_r, E. auto.
Qed.
Lemma rel_l a1 b1 a2 b2 z : rel4 (Rbar_opp b1) (Rbar_opp a1) a2 b2 (- z) <-> rel4 a1 b1 a2 b2 z.
Proof.
  unfold rel4. change (Finite (- z)) with (Rbar_opp z). split; intros ((r & H1 & H2) & r' & H3 & H4); split.
  - exists (Rbar_opp r'). rewrite <- corner_l, Rbar_opp_involutive. split; auto. apply opp_lt. rewrite Rbar_opp_involutive. auto.
  - exists (Rbar_opp r). rewrite <- corner_l, Rbar_opp_involutive. split; auto. apply opp_lt. rewrite Rbar_opp_involutive. auto.
  - exists (Rbar_opp r'). rewrite corner_l. split; auto. apply opp_lt. auto.
  - exists (Rbar_opp r). rewrite corner_l. split; auto. apply opp_lt. auto.
Qed.
Lemma rel_r a1 b1 a2 b2 z : rel4 a1 b1 (Rbar_opp b2) (Rbar_opp a2) (- z) <-> rel4 a1 b1 a2 b2 z.
Proof.
  unfold rel4. change (Finite (- z)) with (Rbar_opp z). split; intros ((r & H1 & H2) & r' & H3 & H4); split.
  - exists (Rbar_opp r'). rewrite <- corner_r, Rbar_opp_involutive. split; auto. apply opp_lt. rewrite Rbar_opp_involutive. auto.
  - exists (Rbar_opp r). rewrite <- corner_r, Rbar_opp_involutive. split; auto. apply opp_lt. rewrite Rbar_opp_involutive. auto.
  - exists (Rbar_opp r'). rewrite corner_r. split; auto. apply opp_lt. auto.
  - exists (Rbar_opp r). rewrite corner_r. split; auto. apply opp_lt. auto.
Qed.

(** the values between two ends; equal ends are an atom *)
Definition btw (a b : Rbar) (s : R) : Prop := (Rbar_lt a s /\ Rbar_lt s b) \/ (a = Finite s /\ b = Finite s).
Definition meet4 (a1 b1 a2 b2 : Rbar) (z : R) : Prop := exists s t : R, btw a1 b1 s /\ btw a2 b2 t /\ z = s * t.
Definition endsok (a b : Rbar) : Prop := Rbar_lt a b \/ exists r : R, a = r /\ b = r.
Lemma btw_opp a b s : btw (Rbar_opp b) (Rbar_opp a) (- s) <-> btw a b s.
Proof.
  unfold btw. change (Finite (- s)) with (Rbar_opp s). rewrite !opp_lt. split; intros [H|(H1 & H2)]; try tauto; right.
  - split; [rewrite <- (Rbar_opp_involutive a), H2|rewrite <- (Rbar_opp_involutive b), H1]; apply Rbar_opp_involutive.
  - subst. auto.
Qed.
Lemma meet_l a1 b1 a2 b2 z : meet4 (Rbar_opp b1) (Rbar_opp a1) a2 b2 (- z) <-> meet4 a1 b1 a2 b2 z.
Proof.
  split; intros (s & t & Hs & Ht & E); exists (- s), t; splits; auto; try lra.
  - apply btw_opp. rewrite Ropp_involutive. auto.
  - apply btw_opp. auto.
Qed.
Lemma meet_r a1 b1 a2 b2 z : meet4 a1 b1 (Rbar_opp b2) (Rbar_opp a2) (- z) <-> meet4 a1 b1 a2 b2 z.
Proof.
  split; intros (s & t & Hs & Ht & E); exists s, (- t); splits; auto; try lra.
  - apply btw_opp. rewrite Ropp_involutive. auto.
  - apply btw_opp. auto.
Qed.
Lemma endsok_opp a b : endsok a b -> endsok (Rbar_opp b) (Rbar_opp a).
Proof. intros [H|(r & -> & ->)]; [left; apply opp_lt; auto|right; exists (- r); auto]. Qed.

(** ** The first quadrant *)
Lemma xdiv_lt (x : R) (e : Rbar) (t : R) : 0 < x -> Rbar_le 0 e -> 0 < t ->
  (Rbar_lt (xdiv x e) t <-> Rbar_lt (x / t) e) /\ (Rbar_lt t (xdiv x e) <-> Rbar_lt e (x / t)).
Proof.
  intros X E T. assert (XT : 0 < x / t) by (apply Rdiv_lt_0_compat; auto).
  destruct e as [e| |]; unfold xdiv; simpl in *; try tauto.
  - destruct (reqP e 0) as [->|N].
    + destruct (rltP 0 x); [|lra]. simpl. split; split; intros; auto; lra.
    + assert (P : 0 < e) by lra. simpl. assert (K : x = x / e * e) by (field; lra). assert (K' : x = x / t * t) by (field; lra).
      set (u := x / e) in *. set (v := x / t) in *. split; split; intros; nra.
  - split; split; intros; auto; try tauto; lra.
Qed.
Lemma finite_nn a : Rbar_le 0 a -> a <> p_infty -> exists r : R, a = r /\ 0 <= r.
Proof. intros H N. destruct a as [r| |]; simpl in H; try tauto; try congruence. exists r. auto. Qed.
Lemma endsok_nn a b : Rbar_le 0 a -> endsok a b -> exists r : R, a = r /\ 0 <= r /\ Rbar_le r b.
Proof.
  intros H [E|(r & -> & ->)].
  - destruct (finite_nn a H) as (r & -> & R0); [intros ->; destruct b; simpl in E; tauto|]. exists r. splits; auto. apply Rbar_lt_le; auto.
  - exists r. splits; auto. apply Rbar_le_refl.
Qed.
Lemma op_mul_big (p q : Rbar) (s t : R) : 0 < s -> 0 < t -> Rbar_le s p -> Rbar_le t q -> Rbar_lt s p \/ Rbar_lt t q ->
  exists r, op_mul p q = Some r /\ Rbar_lt (s * t) r.
Proof.
  intros S T P Q H. destruct p as [p| |], q as [q| |]; simpl in P, Q, H; try tauto; unfold op_mul.
  - exists (p * q). split; auto. simpl. nra.
  - destruct (reqP p 0); [lra|]. exists p_infty. split; [|simpl; auto]. rewrite (proj1 (mul_p_inf p ltac:(lra))). auto.
  - destruct (reqP q 0); [lra|]. exists p_infty. split; [|simpl; auto]. change (Some (Rbar_mult p_infty q) = Some p_infty). rewrite Rbar_mult_comm. rewrite (proj1 (mul_p_inf q ltac:(lra))). auto.
  - exists p_infty. split; simpl; auto.
Qed.
Lemma op_mul_nn p q r : Rbar_le 0 p -> Rbar_le 0 q -> op_mul p q = Some r -> Rbar_le 0 r.
Proof.
  intros P Q E. destruct p as [p| |], q as [q| |]; simpl in P, Q; try tauto; unfold op_mul in E.
  - inj_r E. simpl. nra.
  - destruct (reqP p 0); [discriminate|]. inj_r E. rewrite (proj1 (mul_p_inf p ltac:(lra))). simpl. auto.
  - destruct (reqP q 0); [discriminate|]. inj_r E. rewrite Rbar_mult_comm, (proj1 (mul_p_inf q ltac:(lra))). simpl. auto.
  - inj_r E. simpl. auto.
Qed.
Lemma op_mul_xdiv (z : R) p q r : 0 < z -> Rbar_le 0 p -> Rbar_le 0 q -> op_mul p q = Some r -> Rbar_lt z r -> Rbar_lt (xdiv z q) p /\ Rbar_lt 0 q.
Proof.
  intros Z P Q E H. destruct p as [p| |], q as [q| |]; simpl in P, Q; try tauto; unfold op_mul in E; unfold xdiv.
  - inj_r E. simpl in H. destruct (reqP q 0) as [->|N]; [exfalso; lra|]. simpl. split; [|lra].
    assert (0 < q) by lra. assert (K : z = z / q * q) by (field; lra). set (u := z / q) in *. nra.
  - destruct (reqP p 0); [discriminate|]. simpl. split; auto. lra.
  - destruct (reqP q 0); [discriminate|]. simpl. split; auto. lra.
Qed.
Lemma xdiv_mono (z : R) q q' : 0 < z -> Rbar_lt 0 q -> Rbar_le q q' -> Rbar_le (xdiv z q') (xdiv z q).
Proof.
  intros Z Q H. destruct q as [q| |], q' as [q'| |]; simpl in Q, H; try tauto; unfold xdiv.
  - destruct (reqP q 0); [lra|]. destruct (reqP q' 0); [lra|]. simpl. unfold Rdiv. apply Rmult_le_compat_l; [lra|]. apply Rinv_le_contravar; lra.
  - destruct (reqP q 0); [lra|]. simpl. apply Rlt_le. apply Rdiv_lt_0_compat; lra.
  - simpl. lra.
Qed.
Lemma first_quadrant a1 b1 a2 b2 z : Rbar_le 0 a1 -> Rbar_le 0 a2 -> endsok a1 b1 -> endsok a2 b2 ->
  (Rbar_lt a1 b1 \/ Rbar_lt a2 b2) -> z <> 0 ->
  (rel4 a1 b1 a2 b2 z <-> meet4 a1 b1 a2 b2 z) /\ (rel4 a1 b1 a2 b2 z -> 0 < z).
Proof.
  intros H1 H2 E1 E2 ND Z.
  destruct (endsok_nn a1 b1 H1 E1) as (A1 & -> & P1 & L1). destruct (endsok_nn a2 b2 H2 E2) as (A2 & -> & P2 & L2).
  assert (NB1 : Rbar_le 0 b1) by (apply (Rbar_le_trans 0 A1 b1); auto). assert (NB2 : Rbar_le 0 b2) by (apply (Rbar_le_trans 0 A2 b2); auto).
  assert (POS : rel4 A1 b1 A2 b2 z -> 0 < z).
  { intros ((r & (p & q & Hp & Hq & E) & H) & _). assert (K : Rbar_le 0 r).
    { eapply op_mul_nn; [| |exact E]; [destruct Hp as [-> | ->]|destruct Hq as [-> | ->]]; auto. }
    apply (Rbar_le_lt_trans 0 r z K H). }
  split; auto. split.
  - intros RL. specialize (POS RL). destruct RL as ((r & (p & q & Hp & Hq & E) & Hr) & (r' & (p' & q' & Hp' & Hq' & E') & Hr')).
    assert (LOW : A1 * A2 < z).
    { assert (Kp : Rbar_le A1 p) by (destruct Hp as [-> | ->]; auto using Rbar_le_refl). assert (Kq : Rbar_le A2 q) by (destruct Hq as [-> | ->]; auto using Rbar_le_refl).
      destruct p as [p| |], q as [q| |]; simpl in Kp, Kq; try tauto; unfold op_mul in E.
      - inj_r E. simpl in Hr. nra.
      - destruct (reqP p 0); [discriminate|]. inj_r E. rewrite (proj1 (mul_p_inf p ltac:(lra))) in Hr. destruct Hr.
      - destruct (reqP q 0); [discriminate|]. inj_r E. rewrite Rbar_mult_comm, (proj1 (mul_p_inf q ltac:(lra))) in Hr. destruct Hr.
      - inj_r E. destruct Hr. }
    assert (Kp : Rbar_le p' b1 /\ Rbar_le 0 p') by (destruct Hp' as [-> | ->]; auto using Rbar_le_refl).
    assert (Kq : Rbar_le q' b2 /\ Rbar_le 0 q') by (destruct Hq' as [-> | ->]; auto using Rbar_le_refl).
    destruct (op_mul_xdiv z p' q' r' POS (proj2 Kp) (proj2 Kq) E' Hr') as (U1 & Q0).
    assert (UP : Rbar_lt (xdiv z b2) b1).
    { eapply Rbar_lt_le_trans; [|apply Kp]. eapply Rbar_le_lt_trans; [|exact U1]. apply xdiv_mono; auto. apply Kq. }
    destruct E1 as [E1|(r1 & R1 & R1')].
    + destruct E2 as [E2|(r2 & R2 & R2')].
      * destruct (common A1 b1 (xdiv z b2) (xdiv z A2)) as (s & S1 & S2 & S3 & S4); auto.
        -- assert (D : (exists u : R, b2 = u /\ A2 < u /\ xdiv z b2 = z / u) \/ xdiv z b2 = 0).
           { clear - E2 P2. destruct b2 as [b2| |]; simpl in E2; [|right; reflexivity|destruct E2].
             left. exists b2. splits; auto. unfold xdiv. destruct (reqP b2 0); [lra|reflexivity]. }
           unfold xdiv at 2. destruct (reqP A2 0) as [->|N].
           ++ destruct (rltP 0 z); [|lra]. destruct D as [(u & _ & _ & ->)| ->]; simpl; auto.
           ++ destruct D as [(u & _ & U & ->)| ->]; simpl; [|apply Rdiv_lt_0_compat; lra].
              unfold Rdiv. apply Rmult_lt_compat_l; auto. apply Rinv_lt_contravar; nra.
        -- unfold xdiv. destruct (reqP A2 0) as [->|N]; [destruct (rltP 0 z); [|lra]; simpl; auto|]. simpl.
           assert (K : z = z / A2 * A2) by (field; lra). set (u := z / A2) in *. nra.
        -- simpl in S1. assert (S0 : 0 < s) by lra. exists s, (z / s). splits.
           ++ left. simpl. auto.
           ++ left. split; [apply (xdiv_lt z A2 s)|apply (xdiv_lt z b2 s)]; auto.
           ++ field. lra.
      * injection R2 as <-. subst b2. assert (A2 <> 0). { intros ->. unfold xdiv in UP. destruct (reqP 0 0); [|lra]. destruct (rltP 0 z); [|lra]. destruct b1; simpl in UP; tauto. }
        exists (z / A2), A2. splits; [left|right; auto|field; auto].
        unfold xdiv in UP. destruct (reqP A2 0); [lra|]. split; auto. simpl. assert (K : z = z / A2 * A2) by (field; lra). set (u := z / A2) in *. nra.
    + injection R1 as <-. subst b1. destruct ND as [ND|ND]; [simpl in ND; lra|].
      assert (A10 : 0 < A1).
      { assert (D : Rbar_le 0 (xdiv z b2)).
        { clear - ND P2 POS. destruct b2 as [b2| |]; simpl in ND; [|apply Rbar_le_refl|destruct ND].
          unfold xdiv. destruct (reqP b2 0); [lra|]. simpl. apply Rlt_le, Rdiv_lt_0_compat; lra. }
        apply (Rbar_le_lt_trans 0 (xdiv z b2) A1); auto. }
      exists A1, (z / A1). splits; [right; auto|left|field; lra]. split.
      * simpl. assert (K : z = z / A1 * A1) by (field; lra). set (u := z / A1) in *. nra.
      * apply (xdiv_lt z b2 A1); auto.
  - intros (s & t & Hs & Ht & ->).
    assert (S : A1 <= s /\ Rbar_le s b1 /\ (Rbar_lt A1 b1 -> A1 < s /\ Rbar_lt s b1)).
    { destruct Hs as [(S1 & S2)|(S1 & S2)]; [simpl in S1; splits; auto; [lra|apply Rbar_lt_le; auto]|]. injection S1 as ->. subst b1. simpl. splits; auto; lra. }
    assert (T : A2 <= t /\ Rbar_le t b2 /\ (Rbar_lt A2 b2 -> A2 < t /\ Rbar_lt t b2)).
    { destruct Ht as [(S1 & S2)|(S1 & S2)]; [simpl in S1; splits; auto; [lra|apply Rbar_lt_le; auto]|]. injection S1 as ->. subst b2. simpl. splits; auto; lra. }
    destruct S as (S1 & S2 & S3), T as (T1 & T2 & T3).
    assert (0 < s /\ 0 < t) by nra. split.
    + exists (A1 * A2). split; [exists A1, A2; auto|]. simpl. destruct ND as [N|N]; [destruct (S3 N)|destruct (T3 N)]; nra.
    + destruct (op_mul_big b1 b2 s t) as (r & R1 & R2); auto; try tauto.
      exists r. split; auto. exists b1, b2. auto.
Qed.
