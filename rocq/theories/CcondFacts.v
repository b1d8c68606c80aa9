(** Proofs about conditional distributions of copulas. *)
From Coq Require Import Reals Lra Lia List Bool Arith.
From Coquelicot Require Import Coquelicot.
From Verif Require Import Base Copula CopulaSpec Ccond CcondSpec.
Import List ListNotations.
Open Scope R_scope.

Lemma upd_len X i u : length (upd X i u) = length X.
Proof. revert i. induction X as [|x X IH]; intros [|i]; simpl; auto. Qed.
Lemma upd_nth X i u j : (i < length X)%nat -> nth j (upd X i u) 0 = if Nat.eqb j i then u else nth j X 0.
Proof.
  revert i j. induction X as [|x X IH]; intros [|i] [|j] L; simpl in *; try lia; auto. apply IH. lia.
Qed.
Lemma upd_sum fi X i u : (i < length X)%nat -> sumR (map fi (upd X i u)) = sumR (map fi X) - fi (nth i X 0) + fi u.
Proof.
  revert i. induction X as [|x X IH]; intros [|i] L; simpl in *; try lia; [ring|]. rewrite IH by lia. ring.
Qed.
Lemma upd_prod g fl X i u : (length fl <= i)%nat -> marked_prod g fl (upd X i u) = marked_prod g fl X.
Proof.
  revert X i. induction fl as [|b fl IH]; intros [|x X] [|i] L; simpl in *; try lia; auto. rewrite IH by lia. auto.
Qed.
Lemma marked_app a b : marked (a ++ b) = (marked a + marked b)%nat.
Proof. induction a as [|[|] a IH]; simpl; auto. Qed.
Lemma marked_prod_app g a b X : (length a <= length X)%nat -> marked_prod g (a ++ b) X = marked_prod g a X * marked_prod g b (skipn (length a) X).
Proof. revert X. induction a as [|c a IH]; intros [|x X] L; simpl in *; try lia; [ring|ring|]. rewrite IH by lia. ring. Qed.
Lemma sum_pos fi X i : (forall x, In x X -> 0 <= fi x) -> (i < length X)%nat -> 0 < fi (nth i X 0) -> 0 < sumR (map fi X).
Proof.
  revert i. induction X as [|x X IH]; intros [|i] H L P; simpl in *; try lia.
  - assert (0 <= sumR (map fi X)). { clear -H. induction X as [|z X IH]; simpl in *; [lra|]. pose proof (H z (or_intror (or_introl eq_refl))). assert (0 <= sumR (map fi X)) by (apply IH; intros y [->|Y]; [apply H; auto|apply H; auto]). lra. }
    lra.
  - pose proof (H x (or_introl eq_refl)). pose proof (IH i ltac:(intros; apply H; auto) ltac:(lia) P). lra.
Qed.

(** arguments that may be differentiated: marked ones inside (0,1), the others in (0,1] *)
Definition good (var : list nat) (X : list R) : Prop :=
  (forall x, In x X -> 0 < x <= 1) /\ forall i, (i < length X)%nat -> In i var -> nth i X 0 < 1.
Lemma good_upd var X i u : good var X -> (i < length X)%nat -> 0 < u < 1 -> good var (upd X i u).
Proof.
  intros (A & B) L U. split.
  - intros x I. apply (In_nth _ _ 0) in I. destruct I as (j & J & <-). rewrite upd_len in J. rewrite upd_nth by auto. destruct (Nat.eqb j i); [lra|]. apply A, nth_In; auto.
  - intros j J V. rewrite upd_len in J. rewrite upd_nth by auto. destruct (Nat.eqb j i); [lra|auto].
Qed.
Lemma mem_In i var : existsb (Nat.eqb i) var = true <-> In i var.
Proof.
  rewrite existsb_exists. split; [intros (x & I & E); apply Nat.eqb_eq in E; subst; auto|]. intros I. exists i. split; auto. apply Nat.eqb_refl.
Qed.
Lemma inner01 t : 0 < t < 1 -> locally t (fun u => 0 < u < 1).
Proof.
  intros T. exists (mkposreal (Rmin t (1 - t)) ltac:(apply Rmin_pos; lra)). intros s B.
  unfold ball in B; simpl in B; unfold AbsRing_ball, abs, minus, plus, opp in B; simpl in B. apply Rabs_def2 in B.
  pose proof (Rmin_l t (1 - t)). pose proof (Rmin_r t (1 - t)). lra.
Qed.

Lemma skip_nth n X : (n < length X)%nat -> exists r, skipn n X = nth n X 0 :: r.
Proof. revert X. induction n as [|n IH]; intros [|x X] L; simpl in *; try lia; [eauto|]. apply IH. lia. Qed.
Lemma flags_len n var : length (flags n var) = n.
Proof. unfold flags. rewrite map_length, seq_length. auto. Qed.
Lemma ccond_prefix psi fi fi' var : generator psi fi fi' -> forall n X, (n <= length X)%nat -> good var X ->
  fold_left (fun DC i => if existsb (Nat.eqb i) var then diff_at i DC else DC) (seq 0 n) (arch_C psi fi) X =
  psi (marked (flags n var)) (sumR (map fi X)) * marked_prod fi' (flags n var) X.
Proof.
  intros (G1 & G0 & G2). induction n as [|n IH]; intros X L HX.
  - simpl. unfold arch_C. ring.
  - unfold flags. rewrite seq_S, fold_left_app, map_app, Nat.add_0_l. cbn [fold_left map]. rewrite marked_app, marked_prod_app by (rewrite map_length, seq_length; lia).
    fold (flags n var). rewrite flags_len.
    destruct (existsb (Nat.eqb n) var) eqn:E.
    + set (F := fold_left _ (seq 0 n) (arch_C psi fi)) in *. unfold diff_at. apply mem_In in E.
      destruct HX as (HA & HB). pose proof (HB n ltac:(lia) E) as N1. pose proof (HA (nth n X 0) ltac:(apply nth_In; lia)) as N0.
      set (t := nth n X 0) in *. assert (T : 0 < t < 1) by lra. destruct (G1 t T) as (P & D & _).
      assert (S0 : 0 < sumR (map fi X)).
      { apply (sum_pos fi X n); auto; try lia. intros x I. destruct (HA x I) as (X1 & [X2|X2]); [left; apply G1; lra|subst; lra]. }
      assert (K : is_derive (fun u => psi (marked (flags n var)) (sumR (map fi X) - fi t + fi u) * marked_prod fi' (flags n var) X) t
                    (psi (S (marked (flags n var))) (sumR (map fi X)) * fi' t * marked_prod fi' (flags n var) X)).
      { assert (D2 : is_derive (fun u => sumR (map fi X) - fi t + fi u) t (fi' t)).
        { evar_last; [apply (is_derive_plus (V := R_NormedModule)); [apply is_derive_const|exact D]|]. unfold plus, zero; simpl. ring. }
        assert (D3 : is_derive (psi (marked (flags n var))) (sumR (map fi X) - fi t + fi t) (psi (S (marked (flags n var))) (sumR (map fi X)))).
        { replace (sumR (map fi X) - fi t + fi t) with (sumR (map fi X)) by ring. apply G2; auto. }
        evar_last; [apply (is_derive_scal_l (V := R_NormedModule)); exact (is_derive_comp _ _ _ _ _ D3 D2)|].
        unfold scal; simpl; unfold mult; simpl. ring. }
      rewrite (Derive_ext_loc (fun u : R => F (upd X n u)) (fun u : R => psi (marked (flags n var)) (sumR (map fi X) - fi t + fi u) * marked_prod fi' (flags n var) X)).
      * etransitivity; [apply is_derive_unique; exact K|]. cbn [marked]. rewrite Nat.add_1_r.
        destruct (skip_nth n X ltac:(lia)) as (r & SK). rewrite SK. fold t. cbn [marked_prod]. ring.
      * eapply filter_imp; [|apply (inner01 t T)]. intros u U. unfold F. rewrite IH; [|rewrite upd_len; lia|apply good_upd; [split; auto|lia|auto]].
        rewrite upd_sum by lia. rewrite upd_prod; auto. unfold flags. rewrite map_length, seq_length. lia.
    + rewrite IH by (auto; lia). cbn [marked]. rewrite Nat.add_0_r. destruct (skipn n X); cbn [marked_prod]; ring.
Qed.

(** ** Derivatives of monotone functions *)
Lemma der_nonneg (h : R -> R) u d : 0 < u < 1 -> (forall x x', in01 x -> in01 x' -> x <= x' -> h x <= h x') -> is_derive h u d -> 0 <= d.
Proof.
  intros U M D. apply Rnot_lt_le. intros N. apply is_derive_Reals in D. destruct (D (- d / 2) ltac:(lra)) as (e & E).
  pose proof (cond_pos e) as E0. set (t := Rmin (e / 2) (1 - u)). assert (T : 0 < t) by (apply Rmin_pos; lra).
  assert (T1 : t <= e / 2) by apply Rmin_l. assert (T2 : t <= 1 - u) by apply Rmin_r.
  specialize (E t ltac:(lra) ltac:(rewrite Rabs_pos_eq; lra)). apply Rabs_def2 in E.
  assert (Q0 : 0 <= (h (u + t) - h u) / t).
  { apply Rmult_le_pos; [|left; apply Rinv_0_lt_compat; auto]. pose proof (M u (u + t) ltac:(unfold in01; lra) ltac:(unfold in01; lra) ltac:(lra)). lra. }
  lra.
Qed.
Lemma der_bounds (h : R -> R) u d : 0 < u < 1 -> (forall x x', in01 x -> in01 x' -> x <= x' -> 0 <= h x' - h x <= x' - x) -> is_derive h u d -> 0 <= d <= 1.
Proof.
  intros U M D. split.
  - apply (der_nonneg h u d U); auto. intros x x' X X' L. specialize (M x x' X X' L). lra.
  - assert (K : 0 <= 1 - d); [|lra]. apply (der_nonneg (fun x => x - h x) u (1 - d) U).
    + intros x x' X X' L. specialize (M x x' X X' L). lra.
    + apply (is_derive_minus (V := R_NormedModule)); auto. apply (is_derive_id (K := R_AbsRing)).
Qed.
Lemma der_le (h g : R -> R) u d e : 0 < u < 1 -> (forall x x', in01 x -> in01 x' -> x <= x' -> h x' - h x <= g x' - g x) -> is_derive h u d -> is_derive g u e -> d <= e.
Proof.
  intros U M D E. assert (K : 0 <= e - d); [|lra]. apply (der_nonneg (fun x => g x - h x) u (e - d) U).
  - intros x x' X X' L. specialize (M x x' X X' L). lra.
  - apply (is_derive_minus (V := R_NormedModule)); auto.
Qed.
Lemma ccond0 C u v : ccond (pair_fun C) 2 [0%nat] [u; v] = Derive (fun x => C x v) u.
Proof. reflexivity. Qed.
Lemma ccond1 C u v : ccond (pair_fun C) 2 [1%nat] [u; v] = Derive (fun y => C u y) v.
Proof. reflexivity. Qed.
Lemma covers_in m x : covers01 m -> 0 <= x <= 1 -> in_rng m x = true.
Proof.
  intros (A & B) X. unfold in_rng. apply andb_true_iff. split.
  - destruct (bleP (k_lo m) (Finite x)) as [|N]; auto. exfalso. apply N. apply Rbar_le_trans with (Finite 0); auto. simpl. lra.
  - destruct (bleP (Finite x) (k_hi m)) as [|N]; auto. exfalso. apply N. apply Rbar_le_trans with (Finite 1); auto. simpl. lra.
Qed.

(** the inverse generator 1/(1+s) of the Clayton copula with theta = 1, and its derivatives *)
Definition psi1 (k : nat) (s : R) : R := (- 1) ^ k * INR (fact k) * / (1 + s) ^ (S k).
Lemma psi1_gen : generator psi1 (fun t => / t - 1) (fun t => - / t ^ 2).
Proof.
  split; [|split].
    - intros t T. splits.
      + assert (1 < / t) by (rewrite <- Rinv_1 at 1; apply Rinv_lt_contravar; lra). lra.
      + auto_derive; [lra|]. field. lra.
      + unfold psi1. simpl. field. split; lra.
    - rewrite Rinv_1. ring.
    - intros k s P. unfold psi1. assert (PK : (1 + s) ^ k <> 0) by (apply pow_nonzero; lra).
      assert (D : is_derive (fun s => / (1 + s) ^ (S k)) s (- (INR (S k) * (1 + s) ^ k) / ((1 + s) ^ (S k)) ^ 2)).
      { apply (is_derive_inv (fun s => (1 + s) ^ (S k))); [|apply pow_nonzero; lra].
        evar_last; [apply (is_derive_pow (fun s => 1 + s) (S k) s 1); auto_derive; auto; ring|]. cbn [Nat.pred]. ring. }
      evar_last; [exact (is_derive_scal _ _ ((- 1) ^ k * INR (fact k)) _ D)|].
      replace (INR (fact (S k))) with (INR (S k) * INR (fact k)) by (rewrite <- mult_INR; reflexivity). cbn [pow]. field. split; [auto|lra]. 
Qed.
