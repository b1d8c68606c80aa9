(** Proofs: ranges of random variables. *)
From Coq Require Import Reals Lra Lia List Bool Arith.
From Coquelicot Require Import Coquelicot.
From Verif Require Import Base ND Models ModelsFacts RV RVSpec RVFacts RVFacts2.
Import List ListNotations.
Open Scope R_scope.

(** products of range ends *)
Ltac xm := unfold xmul; repeat match goal with |- context [req ?x ?y] => let E := fresh "E" in destruct (req x y) eqn:E; b2p end; try lra;
  try (unfold Rbar_mult, Rbar_mult'; repeat match goal with |- context [Rle_dec ?x ?y] => destruct (Rle_dec x y) end; repeat match goal with |- context [Rle_lt_or_eq_dec ?x ?y ?r] => destruct (Rle_lt_or_eq_dec x y r) end; try lra); auto.
Lemma xmul_comm x y : xmul x y = xmul y x.
Proof. destruct x as [x| |], y as [y| |]; cbn -[Rbar_mult]; try (rewrite Rbar_mult_comm); auto. f_equal. f_equal. ring. Qed.
Lemma xm_pp (u : Rbar) : Rbar_lt 0 u -> xmul u p_infty = Some p_infty /\ xmul u m_infty = Some m_infty.
Proof. destruct u as [u| |]; intros H; cbn in H; try tauto; split; auto; xm. Qed.
Lemma xm_nn (u : Rbar) : Rbar_lt u 0 -> xmul u p_infty = Some m_infty /\ xmul u m_infty = Some p_infty.
Proof. destruct u as [u| |]; intros H; cbn in H; try tauto; split; auto; xm. Qed.
Lemma xm_neg (u v : Rbar) : Rbar_lt u 0 -> Rbar_lt 0 v -> exists p, xmul u v = Some p /\ Rbar_lt p 0.
Proof.
  intros U V. destruct v as [v| |]; cbn in V; [| |tauto].
  - destruct u as [u| |]; cbn in U; [|tauto|].
    + exists (Finite (u * v)). split; auto. cbn. nra.
    + rewrite xmul_comm. exists m_infty. split; [|exact I]. apply xm_pp. cbn. auto.
  - exists m_infty. split; [|exact I]. apply xm_nn. auto.
Qed.
Lemma xm_line (c : R) (a b : Rbar) (y : R) : c <> 0 -> Rbar_le a y -> Rbar_le y b -> exists e p, (e = a \/ e = b) /\ xmul c e = Some p /\ Rbar_le p (c * y).
Proof.
  intros C A B. destruct (Rlt_dec 0 c).
  - exists a. destruct a as [a| |]; cbn in A; [|tauto|]. + exists (Finite (c * a)). splits; auto. cbn. nra. + exists m_infty. splits; auto; try exact I. apply xm_pp. cbn. auto.
  - exists b. destruct b as [b| |]; cbn in B; [| |tauto]. + exists (Finite (c * b)). splits; auto. cbn. nra. + exists m_infty. splits; auto; try exact I. apply xm_nn. cbn. lra.
Qed.
Definition corner (a1 b1 a2 b2 p : Rbar) : Prop := exists e1 e2, (e1 = a1 \/ e1 = b1) /\ (e2 = a2 \/ e2 = b2) /\ xmul e1 e2 = Some p.
Lemma corner_comm a1 b1 a2 b2 p : corner a1 b1 a2 b2 p -> corner a2 b2 a1 b1 p.
Proof. intros (e1 & e2 & A & B & C). exists e2, e1. splits; auto. rewrite xmul_comm. auto. Qed.
Lemma xm_zero v p : xmul 0 v = Some p -> p = 0.
Proof. destruct v as [v| |]; cbn -[Rbar_mult]; try (rewrite req_refl; discriminate). intros [= <-]. f_equal. ring. Qed.
Lemma xm_zf (v : R) : xmul 0 v = Some (Finite 0).
Proof. cbn. f_equal. f_equal. ring. Qed.
Lemma corner_zero a1 b1 a2 b2 (y : R) : Rbar_le a1 0 -> Rbar_le 0 b1 -> Rbar_le a2 y -> Rbar_le y b2 -> (exists p, corner a1 b1 a2 b2 p) -> exists p, corner a1 b1 a2 b2 p /\ Rbar_le p 0.
Proof.
  intros A1 B1 A2 B2 (q & e1 & e2 & Q1 & Q2 & Q).
  destruct (Rbar_lt_dec 0 b2) as [P2|P2]; [destruct (Rbar_lt_dec a1 0) as [P1|P1]|].
  - destruct (xm_neg a1 b2 P1 P2) as (p & P & L). exists p. split; [exists a1, b2; auto|apply Rbar_lt_le; auto].
  - assert (a1 = 0) by (apply Rbar_le_antisym; auto; apply Rbar_not_lt; auto). subst a1. clear A1 P1.
    destruct (Rbar_lt_dec a2 0) as [P3|P3]; [destruct (Rbar_lt_dec 0 b1) as [P4|P4]|].
    + destruct (xm_neg a2 b1 P3 P4) as (p & P & L). rewrite xmul_comm in P. exists p. split; [exists b1, a2; auto|apply Rbar_lt_le; auto].
    + assert (b1 = 0) by (apply Rbar_le_antisym; auto; apply Rbar_not_lt; auto). subst b1. exists q. split; [exists e1, e2; auto|]. assert (e1 = 0) by (destruct Q1; auto). subst e1. apply xm_zero in Q. subst. apply Rbar_le_refl.
    + destruct a2 as [a2| |]; [|cbn in A2; tauto|cbn in P3; tauto]. exists (Finite 0). split; [|apply Rbar_le_refl]. exists (Finite 0), (Finite a2). splits; auto. apply xm_zf.
  - apply Rbar_not_lt in P2. destruct b2 as [b2| |]; cbn in B2, P2; try tauto.
    destruct (Rbar_lt_dec a2 0) as [P3|P3]; [destruct (Rbar_lt_dec 0 b1) as [P4|P4]|].
    + destruct (xm_neg a2 b1 P3 P4) as (p & P & L). rewrite xmul_comm in P. exists p. split; [exists b1, a2; auto|apply Rbar_lt_le; auto].
    + assert (b1 = 0) by (apply Rbar_le_antisym; auto; apply Rbar_not_lt; auto). subst b1. exists (Finite 0). split; [|apply Rbar_le_refl]. exists (Finite 0), (Finite b2). splits; auto. apply xm_zf.
    + apply Rbar_not_lt in P3. destruct a2 as [a2| |]; cbn in A2, P3; try tauto. assert (a2 = 0) by lra. assert (b2 = 0) by lra. subst.
      exists q. split; [exists e1, e2; auto|]. assert (e2 = 0) by (destruct Q2; auto). subst e2. rewrite xmul_comm in Q. apply xm_zero in Q. subst. apply Rbar_le_refl.
Qed.
Lemma corner_low a1 b1 a2 b2 (x y : R) : Rbar_le a1 x -> Rbar_le x b1 -> Rbar_le a2 y -> Rbar_le y b2 -> (exists p, corner a1 b1 a2 b2 p) -> exists p, corner a1 b1 a2 b2 p /\ Rbar_le p (x * y).
Proof.
  intros A1 B1 A2 B2 E.
  assert (Z1 : Rbar_le a1 0 -> Rbar_le 0 b1 -> 0 <= x * y -> exists p, corner a1 b1 a2 b2 p /\ Rbar_le p (x * y)).
  { intros L1 L2 L3. destruct (corner_zero a1 b1 a2 b2 y) as (p & P & L); auto. exists p. split; auto. eapply Rbar_le_trans; eauto. }
  assert (Z2 : Rbar_le a2 0 -> Rbar_le 0 b2 -> 0 <= x * y -> exists p, corner a1 b1 a2 b2 p /\ Rbar_le p (x * y)).
  { intros L1 L2 L3. destruct (corner_zero a2 b2 a1 b1 x) as (p & P & L); auto; [destruct E as (q & Q); exists q; apply corner_comm; auto|]. exists p. split; [apply corner_comm; auto|]. eapply Rbar_le_trans; eauto. }
  destruct (Rtotal_order y 0) as [Y|[Y|Y]].
  - destruct b1 as [b1| |]; cbn in B1; [| |tauto].
    + destruct (Req_dec b1 0) as [->|N].
      * apply Z1; [|cbn; lra|nra]. eapply Rbar_le_trans; [exact A1|cbn; lra].
      * destruct (xm_line b1 a2 b2 y N A2 B2) as (e & p & Ee & P & L). exists p. split; [exists (Finite b1), e; splits; auto; destruct Ee; auto|]. eapply Rbar_le_trans; [exact L|]. cbn. nra.
    + exists m_infty. split; [|cbn; auto]. exists p_infty, a2. splits; auto. rewrite xmul_comm. apply xm_nn. eapply Rbar_le_lt_trans; [exact A2|cbn; lra].
  - apply Z2; [eapply Rbar_le_trans; [exact A2|]|eapply Rbar_le_trans; [|exact B2]|]; cbn; subst; lra.
  - destruct a1 as [a1| |]; cbn in A1; [|tauto|].
    + destruct (Req_dec a1 0) as [->|N].
      * apply Z1; [cbn; lra| |nra]. eapply Rbar_le_trans; [|exact B1]. cbn. lra.
      * destruct (xm_line a1 a2 b2 y N A2 B2) as (e & p & Ee & P & L). exists p. split; [exists (Finite a1), e; splits; auto; destruct Ee; auto|]. eapply Rbar_le_trans; [exact L|]. cbn. nra.
    + exists m_infty. split; [|cbn; auto]. exists m_infty, b2. splits; auto. rewrite xmul_comm. apply xm_pp. eapply Rbar_lt_le_trans; [|exact B2]. cbn. lra.
Qed.
Lemma xmul_opp u v : xmul (Rbar_opp u) v = option_map Rbar_opp (xmul u v).
Proof.
  destruct u as [u| |], v as [v| |]; cbn [Rbar_opp]; auto.
  - cbn. f_equal. f_equal. ring.
  - destruct (Rtotal_order u 0) as [U|[U|U]].
    + rewrite (proj1 (xm_nn u U)). cbn [option_map Rbar_opp]. apply xm_pp. cbn. lra.
    + subst. replace (- 0) with 0 by ring. cbn -[Rbar_mult]. rewrite req_refl. auto.
    + assert (U' : Rbar_lt 0 u) by (cbn; lra). rewrite (proj1 (xm_pp u U')). cbn [option_map Rbar_opp]. apply xm_nn. cbn. lra.
  - destruct (Rtotal_order u 0) as [U|[U|U]].
    + rewrite (proj2 (xm_nn u U)). cbn [option_map Rbar_opp]. apply xm_pp. cbn. lra.
    + subst. replace (- 0) with 0 by ring. cbn -[Rbar_mult]. rewrite req_refl. auto.
    + assert (U' : Rbar_lt 0 u) by (cbn; lra). rewrite (proj2 (xm_pp u U')). cbn [option_map Rbar_opp]. apply xm_nn. cbn. lra.
  - rewrite (xmul_comm m_infty), (xmul_comm p_infty). destruct (Rtotal_order v 0) as [U|[U|U]].
    + rewrite (proj1 (xm_nn v U)), (proj2 (xm_nn v U)). auto.
    + subst. cbn -[Rbar_mult]. rewrite req_refl. auto.
    + assert (U' : Rbar_lt 0 v) by (cbn; lra). rewrite (proj1 (xm_pp v U')), (proj2 (xm_pp v U')). auto.
  - rewrite (xmul_comm m_infty), (xmul_comm p_infty). destruct (Rtotal_order v 0) as [U|[U|U]].
    + rewrite (proj1 (xm_nn v U)), (proj2 (xm_nn v U)). auto.
    + subst. cbn -[Rbar_mult]. rewrite req_refl. auto.
    + assert (U' : Rbar_lt 0 v) by (cbn; lra). rewrite (proj1 (xm_pp v U')), (proj2 (xm_pp v U')). auto.
Qed.
Lemma opp_le (x y : Rbar) : Rbar_le x y -> Rbar_le (Rbar_opp y) (Rbar_opp x).
Proof. destruct x, y; cbn; auto. lra. Qed.
Lemma opp_opp x : Rbar_opp (Rbar_opp x) = x.
Proof. destruct x; cbn; auto. f_equal. ring. Qed.
Lemma corner_opp a1 b1 a2 b2 p : corner a1 b1 a2 b2 p -> corner (Rbar_opp b1) (Rbar_opp a1) a2 b2 (Rbar_opp p).
Proof.
  intros (e1 & e2 & A & B & C). exists (Rbar_opp e1), e2. splits; auto; [destruct A; subst; auto|]. rewrite xmul_opp, C. auto.
Qed.
Lemma corner_high a1 b1 a2 b2 (x y : R) : Rbar_le a1 x -> Rbar_le x b1 -> Rbar_le a2 y -> Rbar_le y b2 -> (exists p, corner a1 b1 a2 b2 p) -> exists p, corner a1 b1 a2 b2 p /\ Rbar_le (x * y) p.
Proof.
  intros A1 B1 A2 B2 (q & Q). destruct (corner_low (Rbar_opp b1) (Rbar_opp a1) a2 b2 (- x) y) as (p & P & L); auto.
  - apply opp_le in B1. auto.
  - apply opp_le in A1. auto.
  - exists (Rbar_opp q). apply corner_opp. auto.
  - exists (Rbar_opp p). split.
    + apply corner_opp in P. rewrite !opp_opp in P. auto.
    + apply opp_le in L. replace (x * y) with (- (- x * y)) by ring. auto.
Qed.

(** least and largest entries *)
Lemma min_le l m : forall x, In x (m :: l) -> Rbar_le (fold_left (fun m y => if blt y m then y else m) l m) x.
Proof.
  revert m. induction l as [|y l IH]; intros m x; cbn [fold_left]; [intros [<-|[]]; apply Rbar_le_refl|].
  intros [<-|[<-|H]].
  - destruct (bltP y m); [eapply Rbar_le_trans; [apply IH; cbn; left; auto|apply Rbar_lt_le; auto]|apply IH; cbn; auto].
  - destruct (bltP y m); [apply IH; cbn; auto|]. eapply Rbar_le_trans; [apply IH; cbn; left; auto|apply Rbar_not_lt; auto].
  - apply IH. cbn. auto.
Qed.
Lemma max_ge l m : forall x, In x (m :: l) -> Rbar_le x (fold_left (fun m y => if blt m y then y else m) l m).
Proof.
  revert m. induction l as [|y l IH]; intros m x; cbn [fold_left]; [intros [<-|[]]; apply Rbar_le_refl|].
  intros [<-|[<-|H]].
  - destruct (bltP m y); [eapply Rbar_le_trans; [apply Rbar_lt_le; eauto|apply IH; cbn; left; auto]|apply IH; cbn; auto].
  - destruct (bltP m y); [apply IH; cbn; auto|]. eapply Rbar_le_trans; [apply Rbar_not_lt; eauto|apply IH; cbn; left; auto].
  - apply IH. cbn. auto.
Qed.
Lemma hull_range l (z : R) : (exists p, In p l /\ Rbar_le p z) -> (exists p, In p l /\ Rbar_le z p) -> in_range (least_of l, most_of l) z.
Proof.
  intros (p & P & L1) (q & Q & L2). destruct l as [|x l]; [destruct P|]. cbn [in_range least_of most_of]. split.
  - eapply Rbar_le_trans; [apply min_le; exact P|auto].
  - eapply Rbar_le_trans; [|apply max_ge; exact Q]. auto.
Qed.
Lemma known_In l p : In p (known l) <-> In (Some p) l.
Proof. unfold known. rewrite in_flat_map. split; [intros ([x|] & I & J); cbn in J; [destruct J as [<-|[]]; auto|destruct J]|]. intros I. exists (Some p). cbn. auto. Qed.
Lemma outer_In f l1 l2 p : In (Some p) (outer_of f l1 l2) <-> exists x y, In (Some x) l1 /\ In (Some y) l2 /\ f x y = Some p.
Proof.
  unfold outer_of. rewrite in_flat_map. split.
  - intros (x & I & J). apply in_map_iff in J as (y & E & J). destruct x as [x|], y as [y|]; try discriminate. exists x, y. auto.
  - intros (x & y & I & J & E). exists (Some x). split; auto. apply in_map_iff. exists (Some y). auto.
Qed.
Lemma least_none l : least_of l <> None -> exists p, In p l.
Proof. destruct l as [|x l]; cbn; [tauto|]. intros _. exists x. auto. Qed.
Lemma mul_range_ok r1 r2 x y : in_range r1 x -> in_range r2 y -> fst (bin_range OMul r1 r2) <> None -> in_range (bin_range OMul r1 r2) (x * y).
Proof.
  destruct r1 as [[a1|] [b1|]], r2 as [[a2|] [b2|]]; try (cbn; tauto). intros (A1 & B1) (A2 & B2). cbn [bin_range fst snd]. intros N.
  assert (IFF : forall p, In p (known (outer_of xmul [Some a1; Some b1] [Some a2; Some b2])) <-> corner a1 b1 a2 b2 p).
  { intros p. rewrite known_In, outer_In. split.
    - intros (u & v & U & V & E). exists u, v. cbn in U, V. splits; auto; [destruct U as [U|[U|[]]]|destruct V as [V|[V|[]]]]; [injection U as <-|injection U as <-|injection V as <-|injection V as <-]; auto.
    - intros (u & v & U & V & E). exists u, v. cbn. splits; auto; [destruct U|destruct V]; subst; auto. }
  apply least_none in N as (q & Q). apply IFF in Q. apply hull_range.
  - destruct (corner_low a1 b1 a2 b2 x y) as (p & P & L); eauto. exists p. split; auto. apply IFF. auto.
  - destruct (corner_high a1 b1 a2 b2 x y) as (p & P & L); eauto. exists p. split; auto. apply IFF. auto.
Qed.

(** quotients *)
Definition xinv (v : Rbar) : Rbar := match v with Finite v => if req v 0 then p_infty else Finite (/ v) | _ => Finite 0 end.
Lemma xdiv_inv u v : xdiv u v = xmul u (xinv v).
Proof.
  destruct v as [v| |]; cbn [xdiv xinv].
  - destruct (req v 0) eqn:E; auto. destruct (bltP 0 u) as [L|L]; [symmetry; apply xm_pp; auto|]. destruct (bltP u 0) as [M|M]; [symmetry; apply xm_nn; auto|].
    assert (u = 0) by (apply Rbar_le_antisym; apply Rbar_not_lt; auto). subst. cbn -[Rbar_mult]. rewrite req_refl. auto.
  - destruct u as [u| |]; cbn -[Rbar_mult]; try (rewrite req_refl; auto). f_equal. f_equal. ring.
  - destruct u as [u| |]; cbn -[Rbar_mult]; try (rewrite req_refl; auto). f_equal. f_equal. ring.
Qed.
Lemma inv_ends (a b : Rbar) (y : R) : y <> 0 -> (Rbar_le 0 a \/ Rbar_lt b 0) -> Rbar_le a y -> Rbar_le y b -> Rbar_le (xinv b) (/ y) /\ Rbar_le (/ y) (xinv a).
Proof.
  intros N O A B. assert (IL : forall u v : R, 0 < u -> u <= v -> / v <= / u) by (intros; apply Rinv_le_contravar; auto).
  destruct O as [O|O].
  - assert (Y : 0 < y) by (assert (Rbar_le 0 y) by (eapply Rbar_le_trans; eauto); cbn in *; lra). split.
    + destruct b as [b| |]; cbn in B; [| |tauto].
      * cbn. rewrite (proj2 (req_false _ _)) by lra. cbn. auto.
      * cbn. left. apply Rinv_0_lt_compat. auto.
    + destruct a as [a| |]; cbn in A, O; try tauto. cbn. destruct (req a 0) eqn:E; b2p; [cbn; auto|]. cbn. apply IL; lra.
  - assert (Y : y < 0) by (assert (Rbar_lt y 0) by (eapply Rbar_le_lt_trans; eauto); auto). split.
    + destruct b as [b| |]; cbn in B, O; try tauto. cbn. rewrite (proj2 (req_false _ _)) by lra. cbn. assert (/ - y <= / - b) by (apply IL; lra). rewrite !Rinv_opp in H. lra.
    + destruct a as [a| |]; cbn in A; try tauto.
      * cbn. rewrite (proj2 (req_false _ _)) by lra. cbn. assert (/ - a <= / - y) by (apply IL; lra). rewrite !Rinv_opp in H. lra.
      * cbn. left. apply Rinv_lt_0_compat. auto.
Qed.
Lemma with_zero_In r p : In (Some p) (with_zero r) -> Some p = fst r \/ Some p = snd r \/ p = 0 /\ exists a b, r = (Some a, Some b) /\ exists q, xmul a b = Some q /\ Rbar_lt q 0.
Proof.
  destruct r as [[a|] [b|]]; unfold with_zero; cbn [fst snd lift2]; try (intros [E|[E|[]]]; auto; fail).
  destruct (xmul a b) as [q|] eqn:X; [|intros [E|[E|[]]]; auto]. destruct (bltP q 0); [|intros [E|[E|[]]]; auto]. intros [E|[E|[E|[]]]]; auto. injection E as <-. right. right. split; auto. exists a, b. split; eauto.
Qed.
Lemma with_zero_ends r : In (fst r) (with_zero r) /\ In (snd r) (with_zero r).
Proof. unfold with_zero. destruct (lift2 xmul (fst r) (snd r)) as [p|]; [destruct (blt p 0)|]; cbn; auto. Qed.
Lemma one_sign_prod (a b q : Rbar) (y : R) : (Rbar_le 0 a \/ Rbar_lt b 0) -> Rbar_le a y -> Rbar_le y b -> xmul a b = Some q -> ~ Rbar_lt q 0.
Proof.
  intros O A B X L. destruct O as [O|O].
  - destruct (Rbar_lt_dec 0 a) as [P|P].
    + assert (PB : Rbar_lt 0 b) by (eapply Rbar_lt_le_trans; [exact P|eapply Rbar_le_trans; eauto]). destruct (xm_neg (Rbar_opp a) b) as (p & E & M); auto; [destruct a; cbn in *; auto; lra|]. rewrite xmul_opp, X in E. cbn in E. injection E as <-. destruct q; cbn in *; auto; lra.
    + assert (a = 0) by (apply Rbar_le_antisym; auto; apply Rbar_not_lt; auto). subst. apply xm_zero in X. subst. cbn in L. lra.
  - assert (PA : Rbar_lt a 0) by (eapply Rbar_le_lt_trans; [eapply Rbar_le_trans; eauto|exact O]). destruct (xm_neg a (Rbar_opp b)) as (p & E & M); auto; [destruct b; cbn in *; auto; lra|].
    rewrite xmul_comm, xmul_opp, xmul_comm, X in E. cbn in E. injection E as <-. destruct q; cbn in *; auto; lra.
Qed.
Lemma div_range_ok r1 r2 x y : y <> 0 -> in_range r1 x -> in_range r2 y -> one_sign r2 -> fst (bin_range ODiv r1 r2) <> None -> in_range (bin_range ODiv r1 r2) (x / y).
Proof.
  destruct r1 as [[a1|] [b1|]], r2 as [[a2|] [b2|]]; try (cbn; tauto). intros NZ (A1 & B1) (A2 & B2) O. cbn [one_sign] in O. cbn [bin_range].
  set (L := known (outer_of xdiv (with_zero (Some a1, Some b1)) (with_zero (Some a2, Some b2)))). cbn [fst]. intros N.
  destruct (inv_ends a2 b2 y NZ O A2 B2) as (I1 & I2).
  assert (C1 : forall p, corner a1 b1 (xinv b2) (xinv a2) p -> In p L).
  { intros p (e1 & e2 & E1 & E2 & E). unfold L. apply known_In, outer_In. destruct (with_zero_ends (Some a1, Some b1)) as (Z1 & Z2), (with_zero_ends (Some a2, Some b2)) as (Z3 & Z4). cbn [fst snd] in *.
    exists e1. destruct E2 as [-> | ->]; [exists b2|exists a2]; rewrite xdiv_inv; splits; auto; destruct E1 as [-> | ->]; auto. }
  assert (C2 : exists p, corner a1 b1 (xinv b2) (xinv a2) p).
  { apply least_none in N as (q & Q). unfold L in Q. apply known_In, outer_In in Q as (u & v & U & V & E). rewrite xdiv_inv in E.
    assert (V' : v = a2 \/ v = b2).
    { apply with_zero_In in V as [V|[V|(-> & a & b & EQ & q' & X & Lq)]]; cbn [fst snd] in *; try (injection V as ->; auto). injection EQ as <- <-. exfalso. eapply one_sign_prod; eauto. }
    assert (CU : u = a1 \/ u = b1 -> exists p, corner a1 b1 (xinv b2) (xinv a2) p) by (intros U'; exists q, u, (xinv v); splits; auto; destruct V' as [-> | ->]; auto).
    apply with_zero_In in U as [U|[U|(-> & a & b & EQ & q' & X & Lq)]]; cbn [fst snd] in *; [injection U as U; auto|injection U as U; auto|]. clear CU. injection EQ as <- <-.
    (* the quotient 0 / v is defined, so v is not zero; then a1 or b1 over v is defined *)
    assert (a1 <> 0 /\ b1 <> 0) as (Na & Nb).
    { split; intros ->; [apply xm_zero in X|rewrite xmul_comm in X; apply xm_zero in X]; subst; cbn in Lq; lra. }
    destruct (xinv v) as [i| |] eqn:Ev.
    - destruct (Req_dec i 0) as [->|Ni].
      + destruct a1 as [a1| |]; [| |]; destruct b1 as [b1| |].
        all: try (cbn in A1; tauto); try (cbn in B1; tauto).
        * exists (Finite (a1 * 0)). exists (Finite a1), (xinv v). rewrite Ev. splits; auto. destruct V' as [<-|<-]; auto.
        * exists (Finite (a1 * 0)). exists (Finite a1), (xinv v). rewrite Ev. splits; auto. destruct V' as [<-|<-]; auto.
        * exists (Finite (b1 * 0)). exists (Finite b1), (xinv v). rewrite Ev. splits; auto. destruct V' as [<-|<-]; auto.
        * (* (-inf, inf) over an infinite end: the other end is finite *)
          assert (OT : exists v', (v' = a2 \/ v' = b2) /\ Rbar_lt 0 (xinv v') \/ (v' = a2 \/ v' = b2) /\ Rbar_lt (xinv v') 0).
          { destruct O as [O|O].
            - exists a2. left. split; auto. destruct a2 as [a2| |]; cbn in O, A2; try tauto. cbn. destruct (req a2 0) eqn:E2; b2p; [exact I|]. cbn. apply Rinv_0_lt_compat. lra.
            - exists b2. right. split; auto. destruct b2 as [b2| |]; cbn in O, B2; try tauto. cbn. rewrite (proj2 (req_false _ _)) by lra. cbn. apply Rinv_lt_0_compat. auto. }
          destruct OT as (v' & [(V2 & P)|(V2 & P)]); [exists m_infty|exists p_infty]; exists m_infty, (xinv v'); splits; auto; try (destruct V2 as [-> | ->]; auto; fail); rewrite xmul_comm; [apply xm_pp|apply xm_nn]; auto.
      + exists (Rbar_mult a1 i). exists a1, (xinv v). splits; auto; [destruct V' as [<-|<-]; auto|]. rewrite Ev. destruct a1 as [a1| |]; cbn -[Rbar_mult]; auto; rewrite (proj2 (req_false i 0)) by auto; auto.
    - exfalso. cbn -[Rbar_mult] in E. rewrite req_refl in E. discriminate.
    - exfalso. cbn -[Rbar_mult] in E. rewrite req_refl in E. discriminate. }
  apply hull_range.
  - destruct (corner_low a1 b1 (xinv b2) (xinv a2) x (/ y)) as (p & P & Lp); auto. exists p. split; auto.
  - destruct (corner_high a1 b1 (xinv b2) (xinv a2) x (/ y)) as (p & P & Lp); auto. exists p. split; auto.
Qed.

(** shifts and sums *)
Lemma xadd_fin (u : Rbar) (s : R) : xadd u s = Some (Rbar_plus u s).
Proof. destruct u; auto. Qed.
Lemma shift_range_ok c s m x : m <> 0 -> in_range (c_a c, c_b c) x -> in_range (shift_range c s m) (m * x + s).
Proof.
  intros M. unfold shift_range. destruct (c_a c) as [a|], (c_b c) as [b|]; try (cbn; tauto). intros (A & B). cbn [lift2].
  assert (DE : forall e : Rbar, exists p, xmul e m = Some p /\ (0 < m -> (Rbar_le e x -> Rbar_le p (m * x)) /\ (Rbar_le x e -> Rbar_le (m * x) p)) /\ (m < 0 -> (Rbar_le e x -> Rbar_le (m * x) p) /\ (Rbar_le x e -> Rbar_le p (m * x)))).
  { intros e. rewrite xmul_comm. destruct e as [e| |].
    - exists (Finite (m * e)). splits; auto; intros P; cbn; split; intros; nra.
    - destruct (Rlt_dec 0 m) as [P|P].
      + exists p_infty. splits; [apply xm_pp; auto| |]; intros Q; [cbn; tauto|lra].
      + exists m_infty. splits; [apply xm_nn; cbn; lra| |]; intros Q; [lra|cbn; tauto].
    - destruct (Rlt_dec 0 m) as [P|P].
      + exists m_infty. splits; [apply xm_pp; auto| |]; intros Q; [cbn; tauto|lra].
      + exists p_infty. splits; [apply xm_nn; cbn; lra| |]; intros Q; [lra|cbn; tauto]. }
  destruct (DE a) as (p & Ep & P1 & P2), (DE b) as (q & Eq & Q1 & Q2). rewrite Ep, Eq. cbn [lift2]. rewrite !xadd_fin.
  assert (MON : forall u v : Rbar, Rbar_le u v -> Rbar_le (Rbar_plus u s) (Rbar_plus v s)) by (intros [u| |] [v| |]; cbn; auto; lra).
  assert (CASE : (Rbar_le p (m * x) /\ Rbar_le (m * x) q) \/ (Rbar_le q (m * x) /\ Rbar_le (m * x) p)) by (destruct (Rtotal_order 0 m) as [Z|[Z|Z]]; [left|exfalso; auto|right]; [split; [apply P1|apply Q1]|split; [apply Q2|apply P2]]; auto).
  change (Finite (m * x + s)) with (Rbar_plus (m * x) s). cbn [xmin xmax].
  destruct CASE as [(L1 & L2)|(L1 & L2)]; apply MON in L1; apply MON in L2; cbn [Rbar_plus] in L1, L2; change (Rbar_plus (m * x) s) with (Finite (m * x + s)) in *.
  - destruct (bltP (Rbar_plus q s) (Rbar_plus p s)) as [F|F], (bltP (Rbar_plus p s) (Rbar_plus q s)) as [G|G]; cbn [in_range].
    + exfalso. apply (Rbar_lt_not_le _ _ F). apply Rbar_lt_le. auto.
    + exfalso. apply (Rbar_lt_not_le _ _ F). eapply Rbar_le_trans; eauto.
    + auto.
    + split; auto. eapply Rbar_le_trans; [exact L2|]. apply Rbar_not_lt. auto.
  - destruct (bltP (Rbar_plus q s) (Rbar_plus p s)) as [F|F], (bltP (Rbar_plus p s) (Rbar_plus q s)) as [G|G]; cbn [in_range].
    + exfalso. apply (Rbar_lt_not_le _ _ F). apply Rbar_lt_le. auto.
    + auto.
    + exfalso. apply (Rbar_lt_not_le _ _ G). eapply Rbar_le_trans; eauto.
    + split; auto. eapply Rbar_le_trans; [|exact L1]. apply Rbar_not_lt. auto.
Qed.
Lemma sum_range_ok r1 r2 x y : in_range r1 x -> in_range r2 y -> in_range (bin_range OSum r1 r2) (x + y).
Proof.
  destruct r1 as [[a1|] [b1|]], r2 as [[a2|] [b2|]]; try (cbn; tauto). intros (A1 & B1) (A2 & B2). cbn [bin_range fst snd lift2].
  assert (X1 : xadd a1 a2 = Some (Rbar_plus a1 a2)) by (destruct a1, a2; cbn in *; tauto). assert (X2 : xadd b1 b2 = Some (Rbar_plus b1 b2)) by (destruct b1, b2; cbn in *; tauto). rewrite X1, X2. cbn [in_range].
  split; [destruct a1, a2|destruct b1, b2]; cbn in *; auto; lra.
Qed.

(** attributes of the objects of a heap *)
Definition cell_ok (h : heap) (c : cell) : Prop :=
  match c_kind c with
  | KBase => True
  | KConst r => range_of c = (Some (Finite 0), Some (Finite 1))
  | KShift s m d => m <> 0 /\ exists c', nth_error h d = Some c' /\ range_of c = shift_range c' s m
  | KUn f d => range_of c = (Some (Finite 0), Some (Finite 1))
  | KBin o d1 d2 => exists c1 c2, nth_error h d1 = Some c1 /\ nth_error h d2 = Some c2 /\ range_of c = bin_range o (range_of c1) (range_of c2)
  end.
Lemma cell_ok_ext h h' c : extends h h' -> cell_ok h c -> cell_ok h' c.
Proof.
  intros X. unfold cell_ok. destruct (c_kind c); auto.
  - intros (M & c' & E & R). split; auto. exists c'. split; auto. eapply ext_nth; eauto.
  - intros (c1 & c2 & E1 & E2 & R). exists c1, c2. splits; auto; eapply ext_nth; eauto.
Qed.
Lemma add_cells h c : (forall i d, nth_error h i = Some d -> cell_ok h d) -> cell_ok (h ++ [c]) c -> forall i d, nth_error (h ++ [c]) i = Some d -> cell_ok (h ++ [c]) d.
Proof.
  intros H C i d E. destruct (Nat.lt_ge_cases i (length h)) as [L|L].
  - rewrite nth_error_app1 in E by auto. eapply cell_ok_ext; [apply add_ext|eauto].
  - rewrite nth_error_app2 in E by auto. destruct (i - length h)%nat as [|n] eqn:N; cbn in E; [|destruct n; discriminate]. injection E as <-. auto.
Qed.
Lemma built_cells h : built h -> forall i c, nth_error h i = Some c -> cell_ok h c.
Proof.
  induction 1 as [|h c B IH K|h r h' i B IH E|h d s m h' i B IH E|h f d h' i B IH E|h o d1 d2 b h' i B IH E].
  - intros [|i] c E; discriminate.
  - apply add_cells; auto. unfold cell_ok. rewrite K. auto.
  - unfold new_const, add_cell in E. injection E as <- <-. apply add_cells; auto. reflexivity.
  - apply new_shift_inv in E as (c & G & M & -> & ->). apply add_cells; auto. unfold cell_ok. cbn [c_kind]. split; auto. exists c. split; [eapply ext_nth; eauto using add_ext|]. unfold range_of. cbn [c_range c_a c_b]. destruct (shift_range c s m). auto.
  - apply new_un_inv in E as (c & G & -> & ->). apply add_cells; auto. reflexivity.
  - apply new_bin_inv in E as (c1 & c2 & G1 & G2 & -> & ->). apply add_cells; auto. unfold cell_ok. cbn [c_kind]. exists c1, c2. splits; [eapply ext_nth; eauto using add_ext|eapply ext_nth; eauto using add_ext|]. unfold range_of at 1. cbn [c_range c_a c_b]. destruct (bin_range o (range_of c1) (range_of c2)). auto.
Qed.
Definition bases_in (h : heap) (w : nat -> R) : Prop := forall j c, nth_error h j = Some c -> c_kind c = KBase -> in_range (range_of c) (w j).
(** the ends of the range of an operation are its attributes *)
Lemma built_none h : built h -> forall i c, nth_error h i = Some c -> c_kind c <> KBase -> c_range c = None.
Proof.
  assert (AD : forall (h : heap) c, (forall i d, nth_error h i = Some d -> c_kind d <> KBase -> c_range d = None) -> (c_kind c <> KBase -> c_range c = None) -> forall i d, nth_error (h ++ [c]) i = Some d -> c_kind d <> KBase -> c_range d = None).
  { intros h0 c H C i d E. destruct (Nat.lt_ge_cases i (length h0)) as [L|L].
    - rewrite nth_error_app1 in E by auto. eauto.
    - rewrite nth_error_app2 in E by auto. destruct (i - length h0)%nat as [|n] eqn:N; cbn in E; [|destruct n; discriminate]. injection E as <-. auto. }
  induction 1 as [|h c B IH K|h r h' i B IH E|h d s m h' i B IH E|h f d h' i B IH E|h o d1 d2 b h' i B IH E].
  - intros [|i] c E; discriminate.
  - apply AD; auto. intros F. exfalso. auto.
  - unfold new_const, add_cell in E. injection E as <- <-. apply AD; auto.
  - apply new_shift_inv in E as (c & G & M & -> & ->). apply AD; auto.
  - apply new_un_inv in E as (c & G & -> & ->). apply AD; auto.
  - apply new_bin_inv in E as (c1 & c2 & G1 & G2 & -> & ->). apply AD; auto.
Qed.
Lemma ranged_ok h w : built h -> bases_in h w -> forall i, ranged h i -> forall c x, nth_error h i = Some c -> value h w i x -> in_range (range_of c) x.
Proof.
  intros B BI. induction 1 as [i c E K|i c s m d c' E K R IH E' RG|i c d1 d2 E K R1 IH1 R2 IH2|i c d1 d2 E K R1 IH1 R2 IH2 N|i c d1 d2 c2 E K R1 IH1 R2 IH2 E2 O N]; intros c0 x E0 V; rewrite E in E0; injection E0 as <-;
  pose proof (built_cells h B i c E) as CO; unfold cell_ok in CO; rewrite K in CO;
  destruct V as [i c0 E0 K0|i c0 r0 E0 K0|i c0 s0 m0 d0 x0 E0 K0 V0|i c0 f0 d0 x0 y0 E0 K0 V0 U0|i c0 o0 e1 e2 x0 y0 z0 E0 K0 V1 V2 B0]; rewrite E in E0; injection E0 as <-; rewrite K in K0; try discriminate K0; try (injection K0; intros; subst).
  - apply BI; auto.
  - destruct CO as (M & c1 & E1 & ->). rewrite E' in E1. injection E1 as <-. apply shift_range_ok; auto. rewrite <- RG. eapply IH; eauto.
  - destruct CO as (c1 & c2 & E1 & E2 & ->). inversion B0; subst. apply sum_range_ok; eauto.
  - assert (NR : c_range c = None) by (eapply built_none; eauto; congruence). destruct CO as (c1 & c2 & E1 & E2 & RE). rewrite RE. inversion B0; subst. apply mul_range_ok; eauto. rewrite <- RE. unfold range_of. rewrite NR. auto.
  - assert (NR : c_range c = None) by (eapply built_none; eauto; congruence). destruct CO as (c1 & c2' & E1 & E2' & RE). rewrite E2 in E2'. injection E2' as <-. rewrite RE. inversion B0; subst. apply div_range_ok; eauto. rewrite <- RE. unfold range_of. rewrite NR. auto.
Qed.
