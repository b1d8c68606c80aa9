(** Conditioning in more than two dimensions, diagonal covariance, the box and the default variables. *)
From Coq Require Import Reals List Arith Bool Lra Lia.
From Coquelicot Require Import Coquelicot.
From Verif Require Import Base Interp InterpFacts ChebFacts Grid GridFacts3 ND NDSpec NDFacts2 QuadFacts RMx RMxFacts IntegralFacts Std NDNorm NDNormSpec NDNormFacts NDNormFacts2 NDNormFacts3.
Import List ListNotations.
Open Scope R_scope.

Lemma rbind_ok {A B} (a : res A) (f : A -> res B) b : rbind a f = Ok b -> exists x, a = Ok x /\ f x = Ok b.
Proof. destruct a; simpl; [eauto|discriminate]. Qed.
(** the matrices of one row *)
Lemma fancy_shape m r c a : fancy m r c = Ok a -> exists row, a = [row] /\ ((length r = 1 /\ length row = length c) \/ (length c = 1 /\ length row = length r) \/ (length r = length c /\ length row = length c))%nat.
Proof.
  unfold fancy. destruct r as [|i [|i' r]].
  - destruct c as [|j [|j' c]]; simpl; try discriminate; intros H; injection H as <-; eexists; split; try reflexivity; simpl; auto.
  - intros H; injection H as <-. eexists; split; [reflexivity|]. rewrite map_length. auto.
  - destruct c as [|j [|j' c]]; [discriminate| |].
    + intros H; injection H as <-. eexists; split; [reflexivity|]. right; left. simpl. rewrite map_length. auto.
    + destruct (Nat.eqb_spec (length (i :: i' :: r)) (length (j :: j' :: c))) as [E|]; [|discriminate]. intros H; injection H as <-.
      eexists; split; [reflexivity|]. right; right. split; auto. cbn in E |- *. rewrite map_length, combine_length. lia.
Qed.
Lemma fancy_diag m r a : fancy m r r = Ok a -> exists row, a = [row] /\ length row = length r.
Proof. intros H. apply fancy_shape in H. destruct H as (row & -> & H). exists row. split; auto. destruct H as [[]|[[]|[]]]; lia. Qed.
Lemma mat_I_row row a : mat_I [row] = Ok a -> length a = length row /\ (row <> [] -> cols a = 1%nat).
Proof.
  unfold mat_I. destruct (has_shape [row] (length [row]) (length [row])) eqn:E.
  - apply shape_iff in E. destruct E as [_ E]. specialize (E row (or_introl eq_refl)). destruct (req _ 0); [discriminate|]. intros H; injection H as <-.
    simpl in E. split; [rewrite table_length; simpl; congruence|]. intros _. reflexivity.
  - intros H; injection H as <-. simpl nth. rewrite map_length. split; auto. intros N. destruct row; [congruence|]. reflexivity.
Qed.
Lemma mat_mul_shape a b c : mat_mul a b = Ok c -> cols a = length b /\ length c = length a /\ (a <> [] -> cols c = cols b).
Proof.
  unfold mat_mul. destruct (Nat.eqb_spec (cols a) (length b)); [|discriminate]. intros H; injection H as <-. splits; auto. apply table_length.
  intros N. unfold cols at 1. destruct a; [congruence|]. rewrite table_row by (simpl; lia). rewrite map_length, seq_length. reflexivity.
Qed.
Lemma broadcast_len op x y z : broadcast op x y = Ok z -> ((length x = 1 /\ length z = length y) \/ (length y = 1 /\ length z = length x) \/ (length x = length y /\ length z = length y))%nat.
Proof.
  unfold broadcast. destruct x as [|a [|a' x]].
  - destruct y as [|b [|b' y]]; simpl; try discriminate; intros H; injection H as <-; simpl; auto.
  - intros H; injection H as <-. rewrite map_length. auto.
  - destruct y as [|b [|b' y]]; [discriminate| |].
    + intros H; injection H as <-. right; left. simpl. rewrite map_length. auto.
    + destruct (Nat.eqb_spec (length (a :: a' :: x)) (length (b :: b' :: y))) as [E|]; [|discriminate]. intros H; injection H as <-.
      right; right. split; auto. cbn in E |- *. rewrite map_length, combine_length. lia.
Qed.
Lemma one_row (m : mat) : length m = 1%nat -> exists row, m = [row].
Proof. destruct m as [|r [|]]; try discriminate; eauto. Qed.
Lemma positions_len vs vars idx : positions vs vars = Ok idx -> length idx = length vs.
Proof. revert idx. induction vs; intros idx H; simpl in H. injection H as <-; auto. destruct (position a vars); [|discriminate]. apply rbind_ok in H. destruct H as (l & H1 & H2). injection H2 as <-. simpl. erewrite IHvs; eauto. Qed.
Lemma others_count d idx : (d <= length (others d idx) + length idx)%nat.
Proof.
  rewrite <- (seq_length d 0) at 1. rewrite <- app_length. apply NoDup_incl_length. apply seq_NoDup.
  intros i Hi. apply in_or_app. destruct (in_dec Nat.eq_dec i idx); auto. left. unfold others. apply filter_In. split; auto. apply notin_iff. auto.
Qed.
Lemma cond_dims g vs X h : ndn_cond g vs X = Ok (NDist h) -> (length (g_mu g) <= 2)%nat.
Proof.
  unfold ndn_cond. intros H. apply rbind_ok in H. destruct H as (var & Ev & H).
  pose proof (others_count (length (g_mu g)) var) as Cnt.
  destruct (others (length (g_mu g)) var) as [|c0 ct]; [discriminate|]. remember (c0 :: ct) as c eqn:Ec.
  assert (Hc : (1 <= length c)%nat) by (subst; simpl; lia). clear Ec c0 ct. cbv zeta in H.
  apply rbind_ok in H; destruct H as (s11 & E11 & H). apply rbind_ok in H; destruct H as (s12 & E12 & H).
  apply rbind_ok in H; destruct H as (s21 & E21 & H). apply rbind_ok in H; destruct H as (s22 & E22 & H).
  apply rbind_ok in H; destruct H as (i22 & Ei & H). apply rbind_ok in H; destruct H as (b & Eb & H).
  apply rbind_ok in H; destruct H as (dx & Ed & H). apply rbind_ok in H; destruct H as (m & Em & H).
  apply rbind_ok in H; destruct H as (cmu & Ec & H). apply rbind_ok in H; destruct H as (e & Ee & H).
  apply rbind_ok in H; destruct H as (row & Er & H).
  apply fancy_shape in E12. destruct E12 as (r12 & -> & L12). apply fancy_diag in E22. destruct E22 as (r22 & -> & L22).
  apply mat_I_row in Ei. destruct Ei as [Li Ci]. apply mat_mul_shape in Eb. destruct Eb as (B1 & B2 & B3).
  apply mat_mul_shape in Em. destruct Em as (M1 & M2 & M3). rewrite B2 in M2. simpl in M2, M1. destruct (one_row m M2) as (mrow & ->).
  apply broadcast_len in Ed. apply broadcast_len in Ec. rewrite !pick_length in *. cbn [nth] in Ec.
  unfold cols in B1 at 1. cbn [nth] in B1. rewrite Li, L22 in B1.
  assert (M3' : length mrow = length dx). { change (cols [mrow] = cols [dx]). apply M3. destruct b; [discriminate|congruence]. }
  rewrite M3' in Ec. unfold rmap in H.
  destruct (normal_nd (pick O (g_vars g) c) cmu [row]) as [g'|] eqn:En; [|discriminate].
  apply normal_nd_made in En. destruct En as (_ & Sh & _). apply shape_iff in Sh. destruct Sh as [Sh _]. simpl in Sh. symmetry in Sh.
  assert (Hv : (length var <= 1)%nat).
  { destruct (le_lt_dec (length var) 1); auto. exfalso. lia. }
  lia.
Qed.
Lemma cond_fails vars mu Sg vs X : (3 <= length mu)%nat -> (forall idx, positions vs vars = Ok idx -> others (length mu) idx <> []) ->
  exists e, ndn_cond (made vars mu Sg) vs X = Err e.
Proof.
  intros H Ho. destruct (ndn_cond (made vars mu Sg) vs X) as [[|h]|e] eqn:E; eauto; exfalso.
  - unfold ndn_cond in E. apply rbind_ok in E. destruct E as (idx & E1 & E). specialize (Ho idx E1). simpl g_mu in E.
    destruct (others (length mu) idx); [congruence|]. repeat (apply rbind_ok in E; destruct E as (? & _ & E)). discriminate.
  - apply cond_dims in E. simpl in E. lia.
Qed.
(** some variable left: not all are given *)
Lemma others_left (vars : list nat) (mu : list R) vs idx : length vars = length mu -> positions vs vars = Ok idx -> NoDup vars -> (exists v, In v vars /\ ~ In v vs) -> others (length mu) idx <> [].
Proof.
  intros L E N (v & Iv & Nv) Z. destruct (In_nth _ _ O Iv) as (i & Hi & Ei).
  assert (In i (others (length mu) idx)); [|rewrite Z in H; destruct H].
  unfold others. apply filter_In. split. apply in_seq; lia. apply notin_iff. intros Hx. apply Nv.
  clear Z Nv Iv. revert idx E Hx. induction vs; intros idx E Hx; simpl in E. injection E as <-; destruct Hx.
  destruct (position a vars) eqn:Ep; [|discriminate]. apply rbind_ok in E. destruct E as (l & E1 & E2). injection E2 as <-.
  destruct Hx as [<-|Hx]. apply position_some in Ep. left. rewrite <- Ei. symmetry. tauto. right. eauto.
Qed.

(** ** Diagonal covariance *)
Lemma gdens_diag n : forall A y, (forall i j, (i < n)%nat -> (j < n)%nat -> i <> j -> A i j = 0) -> (forall i, (i < n)%nat -> 0 < A i i) ->
  gdens n A y = fold_right Rmult 1 (map (fun i => normal_pdf 0 (sqrt (A i i)) (y i)) (seq 0 n)) /\ 0 < mdet n A.
Proof.
  assert (Inv : forall n A, (forall i j, (i < n)%nat -> (j < n)%nat -> i <> j -> A i j = 0) -> (forall i, (i < n)%nat -> 0 < A i i) ->
    mdet n A <> 0 /\ forall i j, (i < n)%nat -> (j < n)%nat -> minv n A i j = if Nat.eqb i j then / A i i else 0).
  { intros m A Z P. apply minv_unique. intros i j Hi Hj. rewrite (bsum_one m i); auto.
    - unfold delta. destruct (Nat.eqb_spec i j) as [->|N]. change R1 with 1. apply Rinv_r. specialize (P j Hj). lra. change R0 with 0. ring.
    - intros k Hk N. rewrite Z by auto. ring. }
  induction n; intros A y Z P.
  - split. unfold gdens, quad. rewrite bsum_0, mdet_0. simpl. replace (- (0 / 2)) with 0 by lra. rewrite exp_0. change R1 with 1. replace (1 * 1) with 1 by ring. rewrite sqrt_1. lra.
    rewrite mdet_0. change (0 < 1). lra.
  - destruct (IHn A y) as [IH1 IH2]; auto.
    destruct (Inv (S n) A Z P) as [D Iv]. destruct (Inv n A ltac:(auto) ltac:(auto)) as [_ Iv'].
    pose proof (minv_diag n A n D ltac:(lia)) as E. rewrite Iv in E by lia. rewrite Nat.eqb_refl in E.
    rewrite (mdet_ext n _ A) in E. 2:{ intros i j Hi Hj. unfold skip. destruct (Nat.ltb_spec i n), (Nat.ltb_spec j n); auto; lia. }
    pose proof (P n ltac:(lia)) as Pn. assert (Ed : mdet (S n) A = A n n * mdet n A). { rewrite <- E. field. lra. }
    split. 2: rewrite Ed; apply Rmult_lt_0_compat; auto.
    rewrite seq_S, map_app, fold_right_app. simpl fold_right at 2. cbn [map fold_right Nat.add].
    assert (F : forall l a, fold_right Rmult a l = fold_right Rmult 1 l * a). { clear. induction l; intros; simpl. ring. rewrite (IHl a0). ring. }
    rewrite F, <- IH1. unfold gdens. rewrite Ed.
    assert (Q : quad (S n) (minv (S n) A) y = quad n (minv n A) y + y n * y n / A n n).
    { rewrite (quad_ext n (minv n A) (fun i j => minv (S n) A i j) y y); auto.
      2:{ intros i j Hi Hj. rewrite Iv, Iv' by lia. reflexivity. }
      unfold quad. rewrite bsum_S. rewrite (bsum_ext n (fun i => bsum (S n) _) (fun i => bsum n (fun j => y i * minv (S n) A i j * y j))).
      - f_equal. rewrite (bsum_one (S n) n); [|lia|]. rewrite Iv, Nat.eqb_refl by lia. field; lra.
        intros i Hi Ni. rewrite Iv by lia. destruct (Nat.eqb_spec n i); [lia|ring].
      - intros i Hi. rewrite bsum_S. rewrite Iv by lia. destruct (Nat.eqb_spec i n); [lia|ring]. }
    rewrite Q. unfold normal_pdf. rewrite sqrt_sqrt by lra. pose proof PI_RGT_0. set (p := (2 * PI) ^ n). change ((2 * PI) ^ S n) with (2 * PI * p).
    assert (0 < p) by (apply pow_lt; lra).
    replace (A n n * mdet n A * (2 * PI * p)) with ((mdet n A * p) * (A n n * (2 * PI))) by ring.
    rewrite (sqrt_mult (mdet n A * p)). 2: apply Rmult_le_pos; lra. 2: apply Rmult_le_pos; lra.
    rewrite (sqrt_mult (A n n) (2 * PI)) by lra.
    replace (- ((quad n (minv n A) y + y n * y n / A n n) / 2)) with (- (quad n (minv n A) y / 2) + - ((y n - 0) * (y n - 0) * (0.5 / A n n))) by (replace 0.5 with (1 / 2) by lra; field; lra).
    rewrite exp_plus. field. splits; apply Rgt_not_eq, sqrt_lt_R0; try lra. apply Rmult_lt_0_compat; auto.
Qed.

(** ** The box *)
Lemma inside_box X : forall mu, length X = length mu ->
  inside X (map (fun m => m - 5) mu) (map (fun m => m + 5) mu) = true <-> forall i, (i < length mu)%nat -> Rabs (nth i X 0 - nth i mu 0) <= 5.
Proof.
  induction X as [|x X IH]; intros [|m mu] H; try discriminate; simpl.
  - split; auto. intros _ i Hi. lia.
  - unfold in_rng. rewrite !andb_true_iff. rewrite IH by (simpl in H; lia). split.
    + intros [[H1 H2] H3] [|i] Hi; [|apply H3; lia]. simpl. b2p. apply Rabs_le. lra.
    + intros G. pose proof (G O ltac:(lia)) as G0. simpl in G0. apply Rabs_le_between in G0. splits; try (apply rle_true; lra).
      intros i Hi. apply (G (S i)). lia.
Qed.
Lemma box_call vars mu Sg X : normal_params vars mu Sg -> length X = length mu ->
  0 < ndn_pdf (made vars mu Sg) X /\
  ((forall i, (i < length mu)%nat -> Rabs (nth i X 0 - nth i mu 0) <= 5) -> nd_point (ndn_fun (made vars mu Sg)) X = ndn_pdf (made vars mu Sg) X) /\
  ((exists i, (i < length mu)%nat /\ 5 < Rabs (nth i X 0 - nth i mu 0)) -> nd_point (ndn_fun (made vars mu Sg)) X = 0).
Proof.
  intros NP L. assert (0 < ndn_pdf (made vars mu Sg) X). { rewrite pdf_made by auto. apply gdens_pos. apply NP. }
  unfold nd_point, post. cbn [ndn_fun nd_abs nd_a nd_b nd_f]. change (g_mu (made vars mu Sg)) with mu.
  pose proof (inside_box X mu L) as I. splits; auto.
  - intros Hi. rewrite (proj2 I Hi). reflexivity.
  - intros (i & Hi & G). destruct (inside _ _ _); auto. pose proof (proj1 I eq_refl i Hi). lra.
Qed.
Lemma default_iff m s : 0 < s -> ((forall x, normal_pdf m s x = normal_pdf m (sqrt s) x) <-> s = 1).
Proof.
  intros H. pose proof PI_RGT_0. split.
  - intros E. specialize (E m). unfold normal_pdf in E. replace (m - m) with 0 in E by ring. rewrite !Rmult_0_l, Ropp_0, exp_0, !Rmult_1_r in E.
    assert (S0 : 0 < sqrt s) by (apply sqrt_lt_R0; auto). assert (S1 : 0 < sqrt (2 * PI)) by (apply sqrt_lt_R0; lra).
    assert (E' : s = sqrt s). { apply (f_equal Rinv) in E. unfold Rdiv in E. rewrite !Rmult_1_l, !Rinv_inv in E. apply Rmult_eq_reg_r in E; lra. }
    pose proof (sqrt_sqrt s ltac:(lra)) as Q. nra.
  - intros -> x. rewrite sqrt_1. reflexivity.
Qed.
