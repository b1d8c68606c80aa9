(** Concrete instances for gamma.py. *)
From Coq Require Import Reals Lra Lia List Bool Arith.
From Coquelicot Require Import Coquelicot.
From Verif Require Import Base StdSpec Lgam LgamSpec LgamFacts LgamFacts2 LgamMain.
Import List ListNotations.
Open Scope R_scope.

Example ex_polevl : polevl 2 [1; 0; 3] 2 = Ok 7.
Proof. rewrite polevl_ok by reflexivity. rewrite !poly_cons. unfold poly. simpl. f_equal. ring. Qed.

(** a function with the functional equation on the whole line and the reflection formula *)
Definition g1 (f : R) : R := if req f 0 then 1 else f * sqrt (PI / sin (PI * f)).
Fixpoint up_prod (f : R) (n : nat) : R := match n with O => 1 | S n => up_prod f n * (f + INR (S n)) end.
Fixpoint dn_prod (f : R) (n : nat) : R := match n with O => f | S n => dn_prod f n * (f - INR (S n)) end.
Definition Gz (f : R) (n : Z) : R := if (1 <=? n)%Z then g1 f * up_prod f (Z.to_nat (n - 1)) else g1 f / dn_prod f (Z.to_nat (- n)).
Definition Gx (x : R) : R := Gz (frac_part x) (Int_part x).

Lemma frac_plus1 x : frac_part (x + 1) = frac_part x /\ Int_part (x + 1) = (Int_part x + 1)%Z.
Proof.
  assert (I : Int_part (x + 1) = (Int_part x + 1)%Z).
  { pose proof (base_Int_part x) as (A & B). pose proof (base_Int_part (x + 1)) as (C & D).
    assert (E1 : IZR (Int_part (x + 1)) < IZR (Int_part x + 2)) by (rewrite plus_IZR; lra).
    assert (E2 : IZR (Int_part x) < IZR (Int_part (x + 1))) by lra. apply lt_IZR in E1. apply lt_IZR in E2. lia. }
  split; auto. unfold frac_part. rewrite I, plus_IZR. lra.
Qed.
Lemma dn_nz x : ~ is_pole x -> forall n, (Z.of_nat n <= - Int_part x)%Z -> dn_prod (frac_part x) n <> 0.
Proof.
  intros NP. induction n as [|n IH]; intros N; cbn [dn_prod].
  - intros E. apply NP. exists (Z.to_nat (- Int_part x)). rewrite INR_IZR_INZ, Z2Nat.id, opp_IZR by lia. unfold frac_part in E. lra.
  - apply Rmult_integral_contrapositive_currified; [apply IH; lia|]. intros E. apply NP.
    exists (Z.to_nat (- Int_part x - Z.of_nat (S n))). rewrite INR_IZR_INZ, Z2Nat.id by lia. rewrite minus_IZR, opp_IZR, <- INR_IZR_INZ.
    unfold frac_part in E. lra.
Qed.
Lemma Gx_succ x : ~ is_pole x -> Gx (x + 1) = x * Gx x.
Proof.
  intros NP. unfold Gx. destruct (frac_plus1 x) as (-> & ->). set (f := frac_part x). set (n := Int_part x).
  assert (X : x = f + IZR n) by (unfold f, n, frac_part; ring). unfold Gz.
  destruct (Z.leb_spec 1 n) as [H|H].
  - destruct (Z.leb_spec 1 (n + 1)); [|lia]. replace (Z.to_nat (n + 1 - 1)) with (S (Z.to_nat (n - 1))) by lia. cbn [up_prod].
    replace (INR (S (Z.to_nat (n - 1)))) with (IZR n). { rewrite X. ring. }
    rewrite INR_IZR_INZ. f_equal. lia.
  - destruct (Z.leb_spec 1 (n + 1)) as [H1|H1].
    + assert (n = 0%Z) as N0 by lia. rewrite N0 in *. simpl. pose proof (dn_nz x NP 0) as NZ. fold n in NZ. rewrite N0 in NZ. specialize (NZ ltac:(simpl; lia)).
      simpl in NZ. fold f in NZ. simpl in X. rewrite X. field. auto.
    + replace (Z.to_nat (- n)) with (S (Z.to_nat (- (n + 1)))) by lia. cbn [dn_prod].
      assert (E : INR (S (Z.to_nat (- (n + 1)))) = - IZR n). { rewrite INR_IZR_INZ, <- opp_IZR. f_equal. lia. }
      rewrite E. replace (f - - IZR n) with x by lra.
      pose proof (dn_nz x NP (Z.to_nat (- (n + 1)))) as NZ. fold f n in NZ. specialize (NZ ltac:(lia)).
      pose proof (pole_succ x NP). field. auto.
Qed.
Lemma g1_pos f : 0 <= f < 1 -> 0 < g1 f.
Proof.
  intros F. unfold g1. pose proof PI_RGT_0. destruct (reqP f 0); [lra|]. apply Rmult_lt_0_compat; [lra|]. apply sqrt_lt_R0. apply Rdiv_lt_0_compat; auto.
  apply sin_gt_0; nra.
Qed.
Lemma Gx_base f : 0 < f < 1 -> Gx f = g1 f / f.
Proof.
  intros F. assert (I : Int_part f = 0%Z).
  { pose proof (base_Int_part f) as (A & B). assert (A1 : IZR (Int_part f) < IZR 1) by lra. assert (B1 : IZR (-1) < IZR (Int_part f)) by lra.
    apply lt_IZR in A1. apply lt_IZR in B1. lia. }
  unfold Gx. unfold frac_part. rewrite I. unfold Gz. simpl. rewrite Rminus_0_r. auto.
Qed.
Example ex_gamma_like lo : gamma_like lo Gx.
Proof.
  assert (I2 : forall x, 2 <= x < 3 -> Int_part x = 2%Z).
  { intros x X. pose proof (base_Int_part x) as (A & B). assert (A1 : IZR (Int_part x) < IZR 3) by lra. assert (B1 : IZR 1 < IZR (Int_part x)) by lra.
    apply lt_IZR in A1. apply lt_IZR in B1. lia. }
  split; [|split].
  - unfold Gx, Gz, frac_part. rewrite I2 by lra. simpl. unfold g1. destruct (reqP (2 - 2) 0); lra.
  - intros x _. apply Gx_succ.
  - intros x X. unfold Gx, Gz, frac_part. rewrite I2 by auto. simpl.
    apply Rmult_lt_0_compat; [apply g1_pos; lra|lra].
Qed.
Lemma reflect_period q : ~ is_pole q -> ~ is_pole (- q) -> 
  Gx (q + 1) * Gx (- (q + 1)) * ((q + 1) * sin (PI * (q + 1))) = Gx q * Gx (- q) * (q * sin (PI * q)).
Proof.
  intros A B.
  assert (NP : ~ is_pole (- (q + 1))). { intros (n & E). destruct n as [|n]; [|apply B; exists n; rewrite S_INR in E; lra]. apply A. exists 1%nat. simpl in *. lra. }
  pose proof (Gx_succ (- (q + 1)) NP) as E. replace (- (q + 1) + 1) with (- q) in E by ring. rewrite (Gx_succ q A), E.
  replace (PI * (q + 1)) with (PI * q + PI) by ring. rewrite neg_sin. ring.
Qed.
Example ex_reflection : reflection Gx.
Proof.
  assert (INTP : forall (q : R) (z : Z), q = IZR z -> is_pole q \/ is_pole (- q)).
  { intros q z ->. destruct (Z_le_dec 0 z); [right; exists (Z.to_nat z); rewrite INR_IZR_INZ, Z2Nat.id by lia; auto|].
    left. exists (Z.to_nat (- z)). rewrite INR_IZR_INZ, Z2Nat.id, opp_IZR by lia. lra. }
  assert (BASE : forall f, 0 < f < 1 -> Gx f * Gx (- f) * (f * sin (PI * f)) = - PI).
  { intros f F. assert (NP : ~ is_pole (- f)). { intros (n & E). rewrite INR_IZR_INZ in E. assert (A1 : IZR 0 < IZR (Z.of_nat n)) by lra. assert (B1 : IZR (Z.of_nat n) < IZR 1) by lra. apply lt_IZR in A1. apply lt_IZR in B1. lia. }
    pose proof (Gx_succ (- f) NP) as E. replace (- f + 1) with (1 - f) in E by ring.
    assert (E' : Gx (- f) = Gx (1 - f) / - f) by (rewrite E; field; lra). rewrite E', !Gx_base by lra. unfold g1.
    destruct (reqP f 0); [lra|]. destruct (reqP (1 - f) 0); [lra|].
    pose proof PI_RGT_0. assert (S0 : 0 < sin (PI * f)) by (apply sin_gt_0; nra).
    replace (PI * (1 - f)) with (PI - PI * f) by ring. rewrite sin_PI_x.
    assert (SQ : sqrt (PI / sin (PI * f)) * sqrt (PI / sin (PI * f)) = PI / sin (PI * f)) by (apply sqrt_sqrt; apply Rlt_le, Rdiv_lt_0_compat; auto).
    transitivity (- (sqrt (PI / sin (PI * f)) * sqrt (PI / sin (PI * f))) * sin (PI * f)); [field; lra|]. rewrite SQ. field. lra. }
  assert (UP : forall n f, 0 < f < 1 -> Gx (f + INR n) * Gx (- (f + INR n)) * ((f + INR n) * sin (PI * (f + INR n))) = - PI).
  { induction n as [|n IH]; intros f F; [simpl; rewrite Rplus_0_r; auto|]. rewrite S_INR, <- Rplus_assoc. pose proof (pos_INR n). rewrite reflect_period; auto.
    - apply pos_no_pole. lra.
    - intros (m & E). assert (f = IZR (Z.of_nat m - Z.of_nat n)) by (rewrite minus_IZR, <- !INR_IZR_INZ; lra).
      assert (A1 : IZR 0 < IZR (Z.of_nat m - Z.of_nat n)) by lra. assert (B1 : IZR (Z.of_nat m - Z.of_nat n) < IZR 1) by lra. apply lt_IZR in A1. apply lt_IZR in B1. lia. }
  assert (POS : forall q, 0 < q -> ~ is_pole (- q) -> Gx q * Gx (- q) * (q * sin (PI * q)) = - PI).
  { intros q Q NP. pose proof (base_Int_part q) as (A & B).
    assert (N : (0 <= Int_part q)%Z). { assert (IZR (-1) < IZR (Int_part q)) by lra. apply lt_IZR in H. lia. }
    assert (NI : q <> IZR (Int_part q)). { intros E. apply NP. exists (Z.to_nat (Int_part q)). rewrite INR_IZR_INZ, Z2Nat.id by auto. lra. }
    replace q with ((q - IZR (Int_part q)) + INR (Z.to_nat (Int_part q))) by (rewrite INR_IZR_INZ, Z2Nat.id by auto; ring). apply UP. lra. }
  intros q A B. destruct (Rtotal_order q 0) as [H|[H|H]].
  - assert (E := POS (- q) ltac:(lra)). rewrite Ropp_involutive in E. specialize (E A).
    replace (PI * - q) with (- (PI * q)) in E by ring. rewrite sin_neg in E. lra.
  - exfalso. apply A. exists 0%nat. simpl. lra.
  - apply POS; auto.
Qed.

(** 5! *)
Example ex_120 : lgamma 6 = Ok (Finite (ln 120)).
Proof.
  pose proof (lgamma_factorial 5 ltac:(lia)) as H. replace (INR 5 + 1) with 6 in H by (simpl; ring). rewrite H. do 3 f_equal.
  rewrite INR_IZR_INZ. f_equal.
Qed.
(** a negative non-integer below -34 *)
Example ex_reflect w : lgamma (71 / 2) = Ok (Finite w) -> exists v : R, lgamma (- (71 / 2)) = Ok (Finite v).
Proof.
  intros W. destruct (lgamma_reflection_main Gx (Rabs (w - ln (Rabs (Gx (71 / 2))))) (71 / 2) w ex_reflection) as (v & E & _); auto; try lra; eauto.
  intros (n & E). assert (E2 : 71 = 2 * INR n) by lra. rewrite INR_IZR_INZ, <- mult_IZR in E2. apply eq_IZR in E2. lia.
Qed.
