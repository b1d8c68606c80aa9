(** Facts: exactness of the rules on [a,b], positivity of the weights, error bound. *)
From Coq Require Import Reals Lra Lia List Bool Arith.
From Coquelicot Require Import Coquelicot.
From Verif Require Import Base InterpSpec Interp InterpFacts ChebFacts ChebFacts2 Grid GridFacts3 Quad QuadFacts QuadFacts2 QuadFacts3.
Import List ListNotations.
Open Scope R_scope.

Lemma half_mirror N j : (0 < N)%nat -> (j <= N)%nat -> - cos (half N (N - j)) = cos (half N j).
Proof.
  intros N0 J. assert (0 < INR N) by (apply lt_0_INR; lia). unfold half. rewrite minus_INR by auto.
  replace ((INR N - INR j) * PI / INR N) with (- (INR j * PI / INR N) + PI) by (field; lra). rewrite neg_cos, cos_neg. ring.
Qed.
Lemma rule_T N (w : nat -> R) k : (0 < N)%nat -> (forall j, (j <= N)%nat -> w (N - j)%nat = w j) ->
  bsum (S N) (fun j => w j * T k (- cos (half N j))) = bsum (S N) (fun j => w j * cos (INR k * half N j)).
Proof.
  intros N0 Sy. rewrite bsum_rev. apply bsum_ext. intros j Hj. replace (S N - 1 - j)%nat with (N - j)%nat by lia.
  rewrite Sy, half_mirror, T_cos by lia. reflexivity.
Qed.
Lemma fe_T N k : (2 <= N)%nat -> (Nat.Odd k \/ (k + 2 <= N)%nat) -> bsum (S N) (fun j => fe_w N j * T k (- cos (half N j))) = tint k.
Proof. intros H C. rewrite rule_T; [apply fe_cos; auto|lia|]. intros j Hj. apply dft_mirror; lia. Qed.
Lemma cc_T N k : (2 <= N)%nat -> (Nat.Odd k \/ (k <= N)%nat) -> bsum (S N) (fun j => cc_w N j * T k (- cos (half N j))) = tint k.
Proof. intros H C. rewrite rule_T; [apply cc_cos; auto|lia|]. intros j Hj. apply dft_mirror; lia. Qed.

Lemma poly_cont cs x : continuous (poly cs) x.
Proof.
  induction cs as [|c cs IH]; [apply continuous_const|]. simpl. apply (continuous_plus (V := R_NormedModule)); [apply continuous_const|].
  apply (continuous_mult (K := R_AbsRing)); auto. apply continuous_id.
Qed.
Lemma poly_ex cs a b : ex_RInt (poly cs) a b.
Proof. apply (ex_RInt_continuous (V := R_CompleteNormedModule)). intros. apply poly_cont. Qed.
(** a rule that is right on [-1,1] is right on [a,b] *)
Lemma rule_ab n (w t : nat -> R) d cs a b : (forall k, (k <= d)%nat -> bsum n (fun j => w j * T k (t j)) = tint k) -> (length cs <= S d)%nat ->
  bsum n (fun j => w j * poly cs ((a + b) / 2 + (b - a) / 2 * t j)) * (b - a) / 2 = RInt (poly cs) a b.
Proof.
  intros HT L. rewrite (span_exact n w t d (fun x => poly cs ((a + b) / 2 + (b - a) / 2 * x))); auto; [|apply span_poly; auto].
  pose proof (RInt_comp_lin (V := R_CompleteNormedModule) (poly cs) ((b - a) / 2) ((a + b) / 2) (-1) 1) as H.
  replace ((b - a) / 2 * -1 + (a + b) / 2) with a in H by field. replace ((b - a) / 2 * 1 + (a + b) / 2) with b in H by field.
  rewrite <- (H (poly_ex cs a b)). rewrite (RInt_scal (V := R_CompleteNormedModule)).
  - unfold scal. simpl. unfold mult. simpl. replace (RInt (fun y => poly cs ((b - a) / 2 * y + (a + b) / 2)) (-1) 1) with (RInt (fun x => poly cs ((a + b) / 2 + (b - a) / 2 * x)) (-1) 1).
    + field.
    + apply RInt_ext. intros x _. f_equal. ring.
  - apply (ex_RInt_continuous (V := R_CompleteNormedModule)). intros z _. apply (continuous_comp (fun y => (b - a) / 2 * y + (a + b) / 2) (poly cs)); [|apply poly_cont].
    apply (continuous_plus (V := R_NormedModule)); [|apply continuous_const]. apply (continuous_scal_r (V := R_NormedModule)). apply continuous_id.
Qed.
Lemma raw_t n a b j : cheb_raw n a b j = (a + b) / 2 + (b - a) / 2 * - cos (half (n - 1) j).
Proof. unfold cheb_raw, half. field_simplify; try (apply not_0_INR). all: lra. Qed.
Lemma odd_dec d N k : (k <= d)%nat -> (d <= N \/ (d = S N /\ Nat.Odd d))%nat -> (Nat.Odd k \/ (k <= N)%nat).
Proof. intros K [A|[A O]]; [right; lia|]. destruct (Nat.eq_dec k d) as [->|]; [auto|right; lia]. Qed.

Lemma odd_pred n : (n mod 2 = 1)%nat -> Nat.Odd n.
Proof. intros H. apply Nat.odd_spec. rewrite <- Nat.bit0_odd, Nat.bit0_eqb, H. reflexivity. Qed.
Definition cc_rule (n : nat) (a b : R) (f : R -> R) : R := bsum n (fun j => cc_w (n - 1) j * f (cheb_raw n a b j)) * (b - a) / 2.
Definition fe_rule (n : nat) (a b : R) (f : R -> R) : R := bsum n (fun j => fe_w (n - 1) j * f (cheb_raw n a b j)) * (b - a) / 2.
Lemma cc_exact n a b cs : (3 <= n)%nat -> (length cs <= n + n mod 2)%nat -> cc_rule n a b (poly cs) = RInt (poly cs) a b.
Proof.
  intros H L. unfold cc_rule. rewrite <- (rule_ab n (cc_w (n - 1)) (fun j => - cos (half (n - 1) j)) (n + n mod 2 - 1) cs a b); auto; [| |lia].
  - do 2 f_equal. apply bsum_ext. intros j _. rewrite raw_t. reflexivity.
  - intros k K. replace n with (S (n - 1)) at 1 by lia. apply cc_T; [lia|]. assert (M2 := Nat.mod_upper_bound n 2 ltac:(lia)).
    apply (odd_dec (n + n mod 2 - 1)); auto. destruct (Nat.eq_dec (n mod 2) 0) as [E|E]; [left; lia|]. right. assert (E1 : (n mod 2 = 1)%nat) by lia. rewrite E1. split; [lia|].
    replace (n + 1 - 1)%nat with n by lia. apply odd_pred. auto.
Qed.
Lemma fe_exact n a b cs : (3 <= n)%nat -> (length cs <= n - 2 + n mod 2)%nat -> fe_rule n a b (poly cs) = RInt (poly cs) a b.
Proof.
  intros H L. assert (M2 := Nat.mod_upper_bound n 2 ltac:(lia)). assert (E2 : (n = 3 -> n mod 2 = 1)%nat) by (intros ->; reflexivity).
  unfold fe_rule. rewrite <- (rule_ab n (fe_w (n - 1)) (fun j => - cos (half (n - 1) j)) (n - 2 + n mod 2 - 1) cs a b); auto; [| |lia].
  - do 2 f_equal. apply bsum_ext. intros j _. rewrite raw_t. reflexivity.
  - intros k K. replace n with (S (n - 1)) at 1 by lia. apply fe_T; [lia|].
    destruct (odd_dec (n - 2 + n mod 2 - 1) (n - 3) k K) as [O|O]; [|auto|right; lia].
    destruct (Nat.eq_dec (n mod 2) 0) as [E|E]; [left; lia|]. right. assert (E1 : (n mod 2 = 1)%nat) by lia. rewrite E1. split; [lia|].
    replace (n - 2 + 1 - 1)%nat with (n - 2)%nat by lia. apply odd_pred in E1. destruct E1 as [q Q]. exists (q - 1)%nat. lia.
Qed.

(** ** positivity *)
Lemma cos_lt_1 N j : (0 < j < N)%nat -> cos (ang N j 1) < 1.
Proof.
  intros J. assert (0 < INR N) by (apply lt_0_INR; lia). assert (0 < INR j) by (apply lt_0_INR; lia). assert (INR j < INR N) by (apply lt_INR; lia). pose proof PI_RGT_0.
  assert (S0 : 0 < sin (PI * INR j / INR N)).
  { apply sin_gt_0; [apply Rdiv_lt_0_compat; nra|]. apply (Rmult_lt_reg_r (INR N)); auto. unfold Rdiv. rewrite Rmult_assoc, Rinv_l by lra. nra. }
  replace (ang N j 1) with (2 * (PI * INR j / INR N)) by (unfold ang; simpl (INR 1); field; lra). rewrite cos_2a_sin. nra.
Qed.
Lemma dft_lower N u j : (0 < N)%nat -> (forall k, (0 < k < N)%nat -> u k <= 0) -> dft N u 0 <= dft N u j.
Proof.
  intros N0 H. rewrite dft_0. unfold dft. assert (0 < INR N) by (apply lt_0_INR; lia). apply Rmult_le_compat_r; [left; apply Rinv_0_lt_compat; auto|].
  apply bsum_le. intros k K. destruct k as [|k].
  - unfold ang. simpl (INR 0). replace (2 * PI * INR j * 0 / INR N) with 0 by (unfold Rdiv; ring). rewrite cos_0. lra.
  - pose proof (H (S k) ltac:(lia)). pose proof (COS_bound (ang N j (S k))). nra.
Qed.
Lemma dft_lower_strict N u j : (0 < j < N)%nat -> (forall k, (0 < k < N)%nat -> u k <= 0) -> u 1%nat < 0 -> dft N u 0 < dft N u j.
Proof.
  intros J H U. rewrite dft_0. unfold dft. assert (0 < INR N) by (apply lt_0_INR; lia). apply Rmult_lt_compat_r; [apply Rinv_0_lt_compat; auto|].
  apply (bsum_lt N _ _ 1); [lia| |].
  - intros k K. destruct k as [|k].
    + unfold ang. simpl (INR 0). replace (2 * PI * INR j * 0 / INR N) with 0 by (unfold Rdiv; ring). rewrite cos_0. lra.
    + pose proof (H (S k) ltac:(lia)). pose proof (COS_bound (ang N j (S k))). nra.
  - pose proof (cos_lt_1 N j J). nra.
Qed.
Lemma four_neg k : (0 < k)%nat -> 2 / (1 - 4 * INR k ^ 2) < 0.
Proof.
  intros K. assert (1 <= INR k) by (replace 1 with (INR 1) by reflexivity; apply le_INR; lia).
  replace (2 / (1 - 4 * INR k ^ 2)) with (- (2 / (4 * INR k ^ 2 - 1))) by (field; split; nra). assert (0 < 2 / (4 * INR k ^ 2 - 1)) by (apply Rdiv_lt_0_compat; nra). lra.
Qed.
Lemma v0_neg N k : (2 <= N)%nat -> (0 < k)%nat -> f_v0 N k <= 0.
Proof.
  intros H K. assert (L : (1 <= N / 2)%nat) by (apply (Nat.div_le_mono 2 N 2); lia). apply le_INR in L. change (INR 1) with 1 in L.
  unfold f_v0. destruct (Nat.ltb k (N / 2)); [pose proof (four_neg k K); lra|]. destruct (Nat.eqb k (N / 2)); [|lra].
  assert (0 < 1 / (2 * INR (N / 2) - 1)) by (apply Rdiv_lt_0_compat; lra). lra.
Qed.
Lemma v0_neg_1 N : (2 <= N)%nat -> f_v0 N 1 < 0.
Proof.
  intros H. assert (L : (1 <= N / 2)%nat) by (apply (Nat.div_le_mono 2 N 2); lia).
  unfold f_v0. destruct (Nat.ltb_spec 1 (N / 2)); [apply four_neg; lia|]. destruct (Nat.eqb_spec 1 (N / 2)) as [E|]; [|lia]. rewrite <- E. simpl. lra.
Qed.
Lemma fe_pos N j : (0 < j < N)%nat -> 0 < fe_w N j.
Proof.
  intros J. rewrite <- (fe_w_0 N) by lia. apply dft_lower_strict; auto.
  - intros k K. unfold f_v2. pose proof (v0_neg N k ltac:(lia) ltac:(lia)). pose proof (v0_neg N (N - k) ltac:(lia) ltac:(lia)). lra.
  - unfold f_v2. pose proof (v0_neg_1 N ltac:(lia)). pose proof (v0_neg N (N - 1) ltac:(lia) ltac:(lia)). lra.
Qed.
Lemma u_val N q : (2 <= N)%nat -> (2 * q <= N)%nat -> f_u N q = 2 / (1 - 4 * INR q ^ 2) - cc_w N 0.
Proof.
  intros H Q. pose proof (cc_cos N (2 * q) H (or_intror Q)) as E. unfold cc_w in E. rewrite even_sum in E; [|lia|lia|intros; apply u_sym; auto].
  rewrite tint_even in E. unfold cc_w. lra.
Qed.
Lemma cc_w0_pos N : (2 <= N)%nat -> 0 < cc_w N 0.
Proof. intros H. rewrite cc_w_0 by auto. apply Rdiv_lt_0_compat; [lra|]. apply g_den. auto. Qed.
Lemma cc_pos N j : (2 <= N)%nat -> 0 < cc_w N j.
Proof.
  intros H. apply Rlt_le_trans with (cc_w N 0); [apply cc_w0_pos; auto|]. apply dft_lower; [lia|]. intros k K. pose proof (cc_w0_pos N H).
  destruct (Nat.le_gt_cases (2 * k) N) as [L|G].
  - rewrite u_val by auto. pose proof (four_neg k ltac:(lia)). lra.
  - rewrite <- u_sym, u_val by lia. pose proof (four_neg (N - k) ltac:(lia)). lra.
Qed.
Lemma fe_sum N : (2 <= N)%nat -> bsum (S N) (fe_w N) = 2.
Proof.
  intros H. pose proof (fe_T N 0 H ltac:(right; lia)) as E. rewrite (bsum_ext _ _ (fe_w N)) in E by (intros; rewrite T_0; ring). rewrite E. unfold tint. simpl. field.
Qed.
Lemma cc_sum N : (2 <= N)%nat -> bsum (S N) (cc_w N) = 2.
Proof.
  intros H. pose proof (cc_T N 0 H ltac:(right; lia)) as E. rewrite (bsum_ext _ _ (cc_w N)) in E by (intros; rewrite T_0; ring). rewrite E. unfold tint. simpl. field.
Qed.
Lemma fe_nonneg N j : (2 <= N)%nat -> (j <= N)%nat -> 0 <= fe_w N j.
Proof.
  intros H J. destruct (Nat.eq_dec j 0) as [->|]; [rewrite fe_w_0 by auto; lra|]. destruct (Nat.eq_dec j N) as [->|]; [rewrite fe_w_N by auto; lra|].
  left. apply fe_pos. lia.
Qed.

(** ** error bound of a positive rule *)
Lemma raw_in n a b j : a <= b -> a <= cheb_raw n a b j <= b.
Proof. intros AB. rewrite raw_t. pose proof (COS_bound (half (n - 1) j)). nra. Qed.
Lemma rule_bound n (w x : nat -> R) a b (f P : R -> R) d : a <= b -> (forall j, (j < n)%nat -> 0 <= w j) -> bsum n w = 2 -> (forall j, (j < n)%nat -> a <= x j <= b) ->
  (forall t, a <= t <= b -> Rabs (f t - P t) <= d) -> ex_RInt f a b -> ex_RInt P a b -> bsum n (fun j => w j * P (x j)) * (b - a) / 2 = RInt P a b ->
  Rabs (bsum n (fun j => w j * f (x j)) * (b - a) / 2 - RInt f a b) <= 2 * (b - a) * d.
Proof.
  intros AB W S2 X D EF EP HP.
  assert (A1 : Rabs (bsum n (fun j => w j * f (x j)) - bsum n (fun j => w j * P (x j))) <= 2 * d).
  { replace (bsum n (fun j => w j * f (x j)) - bsum n (fun j => w j * P (x j))) with (bsum n (fun j => w j * (f (x j) - P (x j)))).
    - eapply Rle_trans; [apply bsum_abs|]. rewrite <- S2, <- bsum_scal_r. apply bsum_le. intros j Hj. rewrite Rabs_mult, (Rabs_right (w j)) by (pose proof (W j Hj); lra).
      apply Rmult_le_compat_l; auto.
    - rewrite (bsum_ext n _ (fun j => w j * f (x j) + -1 * (w j * P (x j)))) by (intros; ring). rewrite bsum_plus, bsum_scal. ring. }
  assert (A2 : Rabs (RInt P a b - RInt f a b) <= (b - a) * d).
  { pose proof (is_RInt_minus (V := R_NormedModule) P f a b _ _ (RInt_correct _ _ _ EP) (RInt_correct _ _ _ EF)) as M.
    apply (norm_RInt_le (V := R_NormedModule) (fun t => minus (P t) (f t)) (fun _ => d) a b (minus (RInt P a b) (RInt f a b)) ((b - a) * d)); auto.
    - intros t Ht. change (norm (minus (P t) (f t))) with (Rabs (P t - f t)). rewrite Rabs_minus_sym. auto.
    - apply (is_RInt_const (V := R_NormedModule) a b d). }
  set (A := bsum n (fun j => w j * f (x j))) in *. set (B := bsum n (fun j => w j * P (x j))) in *.
  replace (A * (b - a) / 2 - RInt f a b) with ((A - B) * ((b - a) / 2) + (RInt P a b - RInt f a b)) by (rewrite <- HP; field).
  eapply Rle_trans; [apply Rabs_triang|]. rewrite Rabs_mult, (Rabs_right ((b - a) / 2)) by lra.
  assert (Rabs (A - B) * ((b - a) / 2) <= 2 * d * ((b - a) / 2)) by (apply Rmult_le_compat_r; lra). lra.
Qed.
Lemma cc_bound n a b f cs d : (3 <= n)%nat -> a <= b -> (length cs <= n + n mod 2)%nat -> ex_RInt f a b -> (forall t, a <= t <= b -> Rabs (f t - poly cs t) <= d) ->
  Rabs (cc_rule n a b f - RInt f a b) <= 2 * (b - a) * d.
Proof.
  intros H AB L E D. apply (rule_bound n _ _ a b f (poly cs) d); auto.
  - intros j _. left. apply cc_pos. lia.
  - pose proof (cc_sum (n - 1) ltac:(lia)) as S2. replace (S (n - 1)) with n in S2 by lia. auto.
  - intros. apply raw_in. auto.
  - apply poly_ex.
  - apply cc_exact; auto.
Qed.
Lemma fe_bound n a b f cs d : (3 <= n)%nat -> a <= b -> (length cs <= n - 2 + n mod 2)%nat -> ex_RInt f a b -> (forall t, a <= t <= b -> Rabs (f t - poly cs t) <= d) ->
  Rabs (fe_rule n a b f - RInt f a b) <= 2 * (b - a) * d.
Proof.
  intros H AB L E D. apply (rule_bound n _ _ a b f (poly cs) d); auto.
  - intros j J. apply fe_nonneg; lia.
  - pose proof (fe_sum (n - 1) ltac:(lia)) as S2. replace (S (n - 1)) with n in S2 by lia. auto.
  - intros. apply raw_in. auto.
  - apply poly_ex.
  - apply fe_exact; auto.
Qed.

(** ** the rules as computed *)
Lemma quad_cc n a b f ws xs : (3 <= n)%nat -> clenshaw_coefficients n = Ok ws -> cheb_nodes n a b = Ok xs -> quad_sum (map f xs) ws a b = Ok (cc_rule n a b f).
Proof.
  intros H W X. rewrite clenshaw_fun in W by auto. rewrite cheb_nodes_eq in X by lia. injection W as <-. injection X as <-.
  unfold quad_sum, nodes2. rewrite !map_length, Nat.eqb_refl, map_map, dot_fun. unfold cc_rule. do 3 f_equal. apply bsum_ext. intros. unfold cc_w. ring.
Qed.
Definition inner (n : nat) (a b : R) : list R := map (fun i => cheb_raw n a b (S i)) (seq 0 (n - 2)).
Lemma inner_eq n a b : (3 <= n)%nat -> removelast (tl (nodes2 n a b)) = inner n a b.
Proof.
  intros H. unfold nodes2, inner. destruct n as [|[|[|n]]]; try lia. rewrite tl_fun, removelast_fun. replace (S (S (S n)) - 2)%nat with (S n) by lia. reflexivity.
Qed.
Lemma quad_fe n a b f ws : (3 <= n)%nat -> fejer2_coefficients n = Ok ws -> quad_sum (map f (inner n a b)) ws a b = Ok (fe_rule n a b f).
Proof.
  intros H W. rewrite fejer2_fun in W by auto. injection W as <-. unfold quad_sum, inner. rewrite map_map, !map_length, Nat.eqb_refl, dot_fun. unfold fe_rule. do 3 f_equal.
  replace (bsum n (fun j => fe_w (n - 1) j * f (cheb_raw n a b j))) with (bsum (S (n - 1)) (fun j => fe_w (n - 1) j * f (cheb_raw n a b j))) by (f_equal; lia).
  rewrite bsum_S, fe_w_N by lia. replace (bsum (n - 1) (fun j => fe_w (n - 1) j * f (cheb_raw n a b j))) with (bsum (S (n - 2)) (fun j => fe_w (n - 1) j * f (cheb_raw n a b j))) by (f_equal; lia).
  rewrite bsum_shift, fe_w_0 by lia. rewrite Rmult_0_l, Rmult_0_l, Rplus_0_l, Rplus_0_r. apply bsum_ext. intros. unfold fe_w. ring.
Qed.
