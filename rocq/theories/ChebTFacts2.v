(** Facts: derivatives of Chebyshev series and the recurrence for their coefficients. *)
From Coq Require Import Reals Lra Lia List Bool Arith.
From Coquelicot Require Import Coquelicot.
From Verif Require Import Base InterpSpec Interp Grid Quad ChebT PolyFacts QuadFacts QuadFacts2 QuadFacts3 ChebTFacts.
Import List ListNotations.
Open Scope R_scope.

(** half of the Chebyshev polynomials of the second kind, shifted by one *)
Fixpoint V2 (k : nat) (x : R) : R * R := match k with O => (0, 1 / 2) | S k' => let (u, v) := V2 k' x in (v, 2 * x * v - u) end.
Definition V (k : nat) (x : R) : R := fst (V2 k x).
Lemma V2_snd k x : snd (V2 k x) = V (S k) x.
Proof. unfold V. simpl. destruct (V2 k x). reflexivity. Qed.
Lemma V_0 x : V 0 x = 0. Proof. reflexivity. Qed.
Lemma V_1 x : V 1 x = 1 / 2. Proof. reflexivity. Qed.
Lemma V_SS k x : V (S (S k)) x = 2 * x * V (S k) x - V k x.
Proof. rewrite <- (V2_snd k). unfold V at 1. simpl. pose proof (V2_snd k x). unfold V at 1. destruct (V2 k x) as [u v]. reflexivity. Qed.
Lemma V_step k x : V (S (S k)) x - V k x = T (S k) x.
Proof.
  revert k. apply T_pair.
  - rewrite V_SS, V_1, V_0, T_1. field.
  - rewrite V_SS, V_SS, V_1, V_0, T_SS, T_1, T_0. field.
  - intros k H1 H2. rewrite T_SS, <- H1, <- H2, (V_SS (S (S k))), (V_SS k), (V_SS (S k)), !V_SS. ring.
Qed.
Lemma T_derive m x : is_derive (T m) x (2 * INR m * V m x).
Proof.
  revert m. apply T_pair.
  - rewrite V_0. simpl. replace (2 * 0 * 0) with 0 by ring. apply (is_derive_ext (fun _ => 1)); [intros; rewrite T_0; auto|]. apply (is_derive_const (V := R_NormedModule)).
  - rewrite V_1. simpl. replace (2 * 1 * (1 / 2)) with 1 by field. apply (is_derive_ext (fun t => t)); [intros; rewrite T_1; auto|]. apply (is_derive_id (K := R_AbsRing)).
  - intros k H1 H2. apply (is_derive_ext (fun t => 2 * t * T (S k) t - T k t)); [intros; rewrite T_SS; auto|].
    evar_last.
    + apply (is_derive_minus (V := R_NormedModule)); [|exact H1]. apply (is_derive_mult (K := R_AbsRing) (fun t => 2 * t) (T (S k))); [|exact H2|intros; apply Rmult_comm].
      apply (is_derive_scal (fun t => t) x 2 1). apply (is_derive_id (K := R_AbsRing)).
    + pose proof (V_step k x) as E. pose proof (V_SS k x) as E2. rewrite !S_INR. unfold minus, plus, opp, mult; cbn -[INR V T Rmult Rplus Ropp]. unfold mult; cbn -[INR V T Rmult Rplus Ropp].
      rewrite <- E. replace (2 * x * (2 * (INR k + 1) * V (S k) x)) with (2 * (INR k + 1) * (2 * x * V (S k) x)) by ring. replace (2 * x * V (S k) x) with (V (S (S k)) x + V k x) by lra. ring.
Qed.
Lemma V_at_1 k : V k 1 = INR k / 2.
Proof. revert k. apply T_pair; [rewrite V_0; simpl; field|rewrite V_1; simpl; field|]. intros k H1 H2. rewrite V_SS, H1, H2, !S_INR. field. Qed.
Lemma T_at_1 k : T k 1 = 1.
Proof. revert k. apply T_pair; [apply T_0|apply T_1|]. intros k H1 H2. rewrite T_SS, H1, H2. ring. Qed.

Lemma T_poly k : poly_lt (S k) (T k).
Proof.
  revert k. apply T_pair.
  - apply (poly_lt_ext 1 (fun _ => 1)); [intros; rewrite T_0; auto|]. apply poly_lt_const.
  - apply (poly_lt_ext 2 (fun x => (1 * x - 0) * 1)); [intros; rewrite T_1; ring|]. apply poly_lt_lin, poly_lt_const.
  - intros k H1 H2. apply (poly_lt_ext _ (fun x => (2 * x - 0) * T (S k) x + (-1) * T k x)); [intros; rewrite T_SS; ring|].
    apply poly_lt_plus; [apply poly_lt_lin; auto|]. apply poly_lt_scal. apply (poly_lt_le (S k)); auto.
Qed.
Lemma V_poly k : poly_lt k (V k).
Proof.
  revert k. apply T_pair.
  - apply (poly_lt_ext 0 (fun _ => 0)); [intros; rewrite V_0; auto|]. apply poly_lt_0.
  - apply (poly_lt_ext 1 (fun x => 1 / 2)); [intros; rewrite V_1; auto|]. apply poly_lt_const.
  - intros k H1 H2. apply (poly_lt_ext _ (fun x => (2 * x - 0) * V (S k) x + (-1) * V k x)); [intros; rewrite V_SS; ring|].
    apply poly_lt_plus; [apply poly_lt_lin; auto|]. apply poly_lt_scal. apply (poly_lt_le k); auto.
Qed.
Lemma poly_lt_affine n : forall f m h, poly_lt n f -> poly_lt n (fun x => f (m + h * x)).
Proof.
  induction n as [|n IH]; intros f m h P.
  - destruct P as (cs & L & E). destruct cs; [|discriminate]. apply (poly_lt_ext 0 (fun _ => 0)); [intros; rewrite E; auto|]. apply poly_lt_0.
  - destruct (poly_lt_inv n f P) as (c & g & Pg & E). apply (poly_lt_ext _ (fun x => c + (h * x - (- m)) * g (m + h * x))); [intros; rewrite E; ring|].
    apply poly_lt_plus; [apply poly_lt_const|]. apply (poly_lt_lin n (fun x => g (m + h * x))). apply IH; auto.
Qed.
Lemma ser_poly N c : poly_lt (S N) (ser N c).
Proof.
  unfold ser, bsum. apply (poly_lt_sum (S N) (seq 0 (S N)) (fun m x => c m * T m x)). intros m Hm. apply in_seq in Hm. apply poly_lt_scal. apply (poly_lt_le (S m)); [lia|apply T_poly].
Qed.
(** every polynomial is a series *)
Lemma span_coef d f : spanT d f -> exists c, forall x, f x = ser d c x.
Proof.
  intros S0. induction S0 as [f H|f e k g K S0 (c & IH) H].
  - exists (fun _ => 0). intros x. rewrite H. unfold ser. symmetry. apply bsum_zero. intros; ring.
  - exists (fun i => (if Nat.eqb i k then e else 0) + c i). intros x. rewrite H, IH. unfold ser.
    transitivity (bsum (S d) (fun i => (if Nat.eqb i k then e else 0) * T i x) + bsum (S d) (fun i => c i * T i x)).
    + f_equal. rewrite (bsum_one (S d) k); [rewrite Nat.eqb_refl; auto|lia|]. intros i Hi Di. apply Nat.eqb_neq in Di. rewrite Di. ring.
    + rewrite <- bsum_plus. apply bsum_ext. intros i _. ring.
Qed.
Lemma poly_series N (P : R -> R) m h : poly_lt (S N) P -> exists c, forall t, P (m + h * t) = ser N c t.
Proof.
  intros (cs & L & E). destruct (span_coef N (fun t => poly cs (m + h * t)) (span_poly cs m h N ltac:(lia))) as (c & Hc). exists c. intros t. rewrite E. apply Hc.
Qed.
(** the derivative of a series *)
Definition dser (N : nat) (c : nat -> R) (x : R) : R := bsum (S N) (fun m => c m * (2 * INR m * V m x)).
Lemma ser_derive N c x : is_derive (ser N c) x (dser N c x).
Proof.
  unfold dser, ser. generalize (S N). intros k. induction k as [|k IH].
  - apply (is_derive_ext (fun _ => 0)); [intros; rewrite bsum_0; auto|]. rewrite bsum_0. apply (is_derive_const (V := R_NormedModule)).
  - rewrite bsum_S. apply (is_derive_ext (fun t => bsum k (fun m => c m * T m t) + c k * T k t)); [intros; rewrite bsum_S; auto|].
    apply (is_derive_plus (V := R_NormedModule) (fun t => bsum k (fun m => c m * T m t)) (fun t => c k * T k t)); [exact IH|]. apply is_derive_scal. apply T_derive.
Qed.
Lemma dser_poly N c : poly_lt N (dser N c).
Proof.
  unfold dser, bsum. apply (poly_lt_sum N (seq 0 (S N)) (fun m x => c m * (2 * INR m * V m x))). intros m Hm. apply in_seq in Hm. apply poly_lt_scal. apply poly_lt_scal. apply (poly_lt_le m); [lia|apply V_poly].
Qed.

(** ** the recurrence for the coefficients *)
Definition T' (k : nat) (x : R) : R := if Nat.eqb k 0 then 1 / 2 else T k x.
Lemma V_T' k x : V (S k) x = T' k x + V (k - 1) x.
Proof. destruct k as [|k]; [rewrite V_1, V_0; unfold T'; simpl; ring|]. unfold T'. simpl (Nat.eqb (S k) 0). replace (S k - 1)%nat with k by lia. rewrite <- V_step. ring. Qed.
Fixpoint hp (l : list R) (x : R) : R := match l with [] => 0 | c :: l' => c * T' (length l') x + hp l' x end.
Fixpoint hv (l : list R) (x : R) : R := match l with [] => 0 | c :: l' => c * V (S (length l')) x + hv l' x end.
Lemma cum2_length l : forall e o, length (cum2 e o l) = length l.
Proof. induction l; simpl; auto. Qed.
Lemma cum2_sum l x : forall e o, hp (cum2 e o l) x = e * V (length l) x + o * V (length l - 1) x + hv l x.
Proof.
  induction l as [|y l IH]; intros e o.
  - simpl. rewrite V_0. ring.
  - cbn [cum2 hp hv length]. rewrite IH, cum2_length. replace (S (length l) - 1)%nat with (length l) by lia. pose proof (V_T' (length l) x) as E. rewrite !E. ring.
Qed.
Lemma hp_fun n F x : hp (map F (seq 0 n)) x = bsum n (fun i => F i * T' (n - 1 - i) x).
Proof.
  revert F. induction n as [|n IH]; intros F; [reflexivity|]. cbn [seq map hp]. rewrite map_length, seq_length, bsum_shift. replace (S n - 1 - 0)%nat with n by lia. f_equal.
  rewrite <- seq_shift, map_map. rewrite IH. apply bsum_ext. intros i Hi. do 2 f_equal. lia.
Qed.
Lemma hv_fun n F x : hv (map F (seq 0 n)) x = bsum n (fun i => F i * V (n - i) x).
Proof.
  revert F. induction n as [|n IH]; intros F; [reflexivity|]. cbn [seq map hv]. rewrite map_length, seq_length, bsum_shift. replace (S n - 0)%nat with (S n) by lia. f_equal.
  rewrite <- seq_shift, map_map. rewrite IH. apply bsum_ext. intros i Hi. do 2 f_equal.
Qed.
Lemma mul_lists_fun F G n : mul_lists (map F (seq 0 n)) (map G (seq 0 n)) = map (fun i => F i * G i) (seq 0 n).
Proof. revert F G. induction n as [|n IH]; intros F G; [reflexivity|]. cbn [seq map mul_lists]. rewrite <- seq_shift, !map_map. rewrite IH. reflexivity. Qed.
Lemma upd_fun (F : nat -> R) g n k : (k < n)%nat -> upd k g (map F (seq 0 n)) = map (fun i => if Nat.eqb i k then g (F i) else F i) (seq 0 n).
Proof.
  revert F k. induction n as [|n IH]; intros F k H; [lia|]. cbn [seq map]. rewrite <- seq_shift, !map_map. destruct k as [|k]; cbn [upd].
  - reflexivity.
  - rewrite IH by lia. reflexivity.
Qed.
Lemma cheb_diff_fun N c : (2 <= N)%nat -> exists d,
  cheb_diff (map (fun i => c (N - i)%nat) (seq 0 (S N))) = map (fun i => d (N - 1 - i)%nat) (seq 0 (S (N - 1))) /\
  d (N - 1)%nat = 2 * INR N * c N /\ forall x, ser (N - 1) d x = dser N c x.
Proof.
  intros H. unfold cheb_diff, diff_terms. rewrite fun_length. replace (S N - 1)%nat with N by lia. rewrite removelast_fun, mul_lists_fun.
  cbn [app cum2]. replace (0 + 0) with 0 by ring. set (w := map (fun i => 2 * INR (N - i) * c (N - i)%nat) (seq 0 N)).
  assert (Lw : length w = N) by (unfold w; apply fun_length).
  set (F := fun i => nth i (cum2 0 0 w) 0).
  assert (EF : cum2 0 0 w = map F (seq 0 N)) by (apply list_fun; [rewrite cum2_length; auto|reflexivity]).
  exists (fun k => if Nat.eqb k 0 then F (N - 1)%nat / 2 else F (N - 1 - k)%nat). splits.
  - replace (upd_last (fun x => x / 2) (0 :: 0 :: cum2 0 0 w)) with (0 :: 0 :: upd_last (fun x => x / 2) (cum2 0 0 w)).
    2:{ unfold upd_last. cbn [length]. rewrite cum2_length, Lw. replace (S (S N) - 1)%nat with (S (S (N - 1))) by lia. reflexivity. }
    cbn [skipn]. rewrite EF. unfold upd_last. rewrite fun_length, upd_fun by lia. replace (S (N - 1)) with N by lia. apply map_fun_ext. intros i Hi.
    destruct (Nat.eqb_spec i (N - 1)) as [->|Di].
    + rewrite Nat.sub_diag. reflexivity.
    + replace (Nat.eqb (N - 1 - i) 0) with false by (symmetry; apply Nat.eqb_neq; lia). f_equal. lia.
  - replace (Nat.eqb (N - 1) 0) with false by (symmetry; apply Nat.eqb_neq; lia). rewrite Nat.sub_diag. unfold F. unfold w. destruct N as [|N]; [lia|]. cbn [seq map cum2 nth]. rewrite Nat.sub_0_r. ring.
  - intros x. transitivity (hp (cum2 0 0 w) x).
    + rewrite EF, hp_fun. unfold ser. replace (S (N - 1)) with N by lia. rewrite bsum_rev. apply bsum_ext. intros i Hi. unfold T'.
      destruct (Nat.eqb_spec (N - 1 - i) 0) as [Z|Z].
      * replace i with (N - 1)%nat by lia. rewrite Nat.sub_diag, T_0. field.
      * f_equal. f_equal. lia.
    + rewrite cum2_sum. replace (hv w x) with (bsum N (fun i => c (S i) * (2 * INR (S i) * V (S i) x))).
      * unfold dser. rewrite bsum_shift. simpl (INR 0). ring.
      * unfold w. rewrite hv_fun, (bsum_rev N (fun i => _ * V (N - i) x)). apply bsum_ext. intros i Hi. replace (N - (N - 1 - i))%nat with (S i) by lia. ring.
Qed.
