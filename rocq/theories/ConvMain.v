(** Main lemmas: the convergence monitor (C38). *)
From Coq Require Import Reals Lra Lia List Arith Bool.
From Verif Require Import Base Conv ConvSpec.
Import List ListNotations.
Open Scope R_scope.

Lemma best_fold_In {E} big decr (l : list (R * R * E)) : forall b, In (fold_left (best_step big decr) l b) (b :: l).
Proof.
  induction l as [|t l IH]; intros b; simpl; auto.
  destruct (IH (best_step big decr b t)) as [H|H]; [|auto].
  unfold best_step in H at 1. destruct (rlt _ _); rewrite <- H; auto.
Qed.
(** C38: the result returned is one of the results reported, with its own error and extra data. *)
Lemma best_reported_main :
  forall (E : Type) big decr (m : mon E), (hist m <> [] -> exists r, mon_best big decr m = Ok r) /\
  (hist m = [] -> mon_best big decr m = Err EIndex) /\
  (forall r, mon_best big decr m = Ok r -> In r (hist m)).
Proof.
  intros E big decr m. unfold mon_best.
  assert (NE : hist m <> [] -> exists t, nth_error (hist m) (length (hist m) - 1) = Some t).
  { intros H. destruct (nth_error (hist m) (length (hist m) - 1)) eqn:X; eauto. apply nth_error_None in X. destruct (hist m); [tauto|simpl in X; lia]. }
  splits.
  - intros H. destruct (converged m).
    + destruct (NE H) as (t & ->). eauto.
    + destruct (hist m); [tauto|eauto].
  - intros ->. destruct (converged m); auto.
  - intros r. destruct (converged m).
    + destruct (nth_error (hist m) (length (hist m) - 1)) eqn:X; try discriminate. injection 1 as <-. eapply nth_error_In; eauto.
    + destruct (hist m) as [|t l]; try discriminate. injection 1 as <-. apply best_fold_In.
Qed.

Lemma rel_err_eq big ae y : rel_err big ae y = relative big ae y.
Proof. unfold rel_err, relative, req. destruct (Req_EM_T y 0); auto. Qed.
Lemma rel_nonneg big ae y : 0 <= big -> 0 <= ae -> 0 <= relative big ae y.
Proof.
  intros. unfold relative. destruct (Req_EM_T y 0); auto. apply Rmult_le_pos; auto. left. apply Rinv_0_lt_compat. apply Rabs_pos_lt; auto.
Qed.
(** C38: unless the last attempt met the tolerance, no reported result is better by more than the factor err_decr. *)
Lemma best_near_optimal_main :
  forall (E : Type) big decr (m : mon E) r, 0 <= big -> 0 <= decr <= 1 -> (forall t, In t (hist m) -> 0 <= e_ae t) ->
  converged m = false -> mon_best big decr m = Ok r ->
  forall t, In t (hist m) -> decr * relative big (e_ae r) (e_y r) <= relative big (e_ae t) (e_y t).
Proof.
  intros E big decr m r HB HD HA HC. unfold mon_best. rewrite HC. destruct (hist m) as [|t0 l]; try discriminate. injection 1 as <-.
  assert (G : forall l b (seen : list (R * R * E)), (forall t, In t (b :: l) -> 0 <= e_ae t) ->
     (forall t, In t seen -> decr * relative big (e_ae b) (e_y b) <= relative big (e_ae t) (e_y t)) ->
     let r := fold_left (best_step big decr) l b in
     forall t, In t seen \/ In t l -> decr * relative big (e_ae r) (e_y r) <= relative big (e_ae t) (e_y t)).
  { clear - HB HD. induction l as [|t l IH]; intros b seen NN HS r u Hu; [destruct Hu as [Hu|[]]; auto|].
    subst r. simpl. apply (IH (best_step big decr b t) (t :: seen)).
    - intros v [<-|Hv]; [|apply NN; simpl; auto]. unfold best_step. destruct (rlt _ _); apply NN; simpl; auto.
    - intros v Hv. unfold best_step. rewrite !rel_err_eq.
      pose proof (rel_nonneg big (e_ae t) (e_y t) HB (NN t ltac:(simpl; auto))).
      destruct (rltP (relative big (e_ae t) (e_y t)) (decr * relative big (e_ae b) (e_y b))).
      + destruct Hv as [<-|Hv]; [nra|]. specialize (HS v Hv). nra.
      + destruct Hv as [<-|Hv]; [lra|]. auto.
    - simpl. destruct Hu as [Hu|[Hu|Hu]]; auto. }
  intros t Ht. apply (G l t0 [t0]); auto; [|destruct Ht as [Ht|Ht]; simpl; auto].
  intros u [<-|[]]. pose proof (rel_nonneg big (e_ae t0) (e_y t0) HB (HA t0 ltac:(simpl; auto))). nra.
Qed.

Section Run.
Variable E : Type.
Variable p : mpar.
Variable att : nat -> R * R * E.
Hypothesis Hr : 0 <= ratio p <= 1.
Let ae i := e_ae (att i).
Let y i := e_y (att i).
Hypothesis Ha : forall i, 0 <= ae i.
Definition okay i := within (abstol p) (reltol p) (force_nonzero p = true) ae y i.
Definition stuck n := stalled (ratio p) ae (min_quit_iter p) (quit_no p) n.
Let lg := last_improved (ratio p) ae.
Let idl := idle (ratio p) ae.

Lemma tol_okay i : reflect (okay i) (tol_met p (e_ae (att i)) (e_y (att i))).
Proof.
  unfold tol_met, okay, within. fold (ae i) (y i).
  destruct (rleP (ae i) (Rmax (abstol p) (Rabs (y i) * reltol p))) as [H|H]; simpl.
  - assert (H' : ae i <= abstol p \/ ae i <= reltol p * Rabs (y i)).
    { unfold Rmax in H. destruct (Rle_dec (abstol p) (Rabs (y i) * reltol p)); lra. }
    destruct (force_nonzero p); simpl.
    + destruct (rltP 0 (Rabs (y i))) as [Z|Z]; constructor.
      * split; auto. intros _ N. rewrite N, Rabs_R0 in Z. lra.
      * intros (_ & N). apply Z. apply Rabs_pos_lt. auto.
    + constructor. split; auto.
  - constructor. intros (H' & _). apply H. pose proof (Rmax_l (abstol p) (Rabs (y i) * reltol p)). pose proof (Rmax_r (abstol p) (Rabs (y i) * reltol p)). lra.
Qed.
Lemma lg_lt n : (lg n < n)%nat \/ (n = 0 /\ lg n = 0)%nat.
Proof. unfold lg. induction n; simpl; auto. destruct (Rlt_dec _ _); lia. Qed.
Lemma lg_one : lg 1 = 0%nat.
Proof. unfold lg. simpl. destruct (Rlt_dec _ _); auto. Qed.
Lemma hist_nth n k : (k < n)%nat -> nth_error (map att (seq 0 n)) k = Some (att k).
Proof.
  intros H. rewrite (map_nth_error att k (seq 0 n) (d := k)); auto.
  rewrite (nth_error_nth' (seq 0 n) 0%nat) by (rewrite seq_length; auto). rewrite seq_nth; auto.
Qed.

Definition st n (m : mon E) : Prop := hist m = map att (seq 0 n) /\ converged m = false /\ no_impr m = idl n /\ last_good m = lg n.
Lemma test_step n m : st n m ->
  (okay n -> exists m', mon_test p (mon_add m (att n)) = (m', Ok Converged) /\ hist m' = map att (seq 0 (S n)) /\ converged m' = true) /\
  (~ okay n -> exists m', st (S n) m' /\
     (stuck (S n) -> mon_test p (mon_add m (att n)) = (m', Ok NotConverged)) /\
     (~ stuck (S n) -> mon_test p (mon_add m (att n)) = (m', Ok Continue))).
Proof.
  intros (H1 & H2 & H3 & H4). unfold mon_test, mon_add. cbn [hist converged no_impr last_good].
  assert (HH : hist m ++ [att n] = map att (seq 0 (S n))) by (rewrite H1, seq_S, map_app; auto). rewrite HH.
  rewrite map_length, seq_length. replace (S n - 1)%nat with n by lia. rewrite hist_nth by lia.
  split; intros O.
  - destruct (tol_okay n); [|tauto]. eexists; splits; reflexivity.
  - destruct (tol_okay n); [tauto|]. rewrite H4.
    assert (LN : (lg n < S n)%nat) by (pose proof (lg_lt n); lia). rewrite hist_nth by auto. fold (ae n) (ae (lg n)).
    set (m' := if rlt (ae n) (ratio p * ae (lg n)) then _ else _). exists m'.
    assert (ST : st (S n) m').
    { subst m'. unfold st. destruct (rltP (ae n) (ratio p * ae (lg n))) as [L|L]; cbn [hist converged no_impr last_good]; splits; auto.
      - unfold idl, idle. fold lg. assert (LE : lg (S n) = n) by (unfold lg; simpl; fold lg; destruct (Rlt_dec (ae n) (ratio p * ae (lg n))); tauto).
        rewrite LE. destruct n; simpl; [|lia]. exfalso. unfold lg in L. simpl in L. pose proof (Ha 0). nra.
      - unfold lg. simpl. fold lg. destruct (Rlt_dec (ae n) (ratio p * ae (lg n))); tauto.
      - rewrite H3. unfold idl, idle. fold lg. assert (LE : lg (S n) = lg n) by (unfold lg; simpl; fold lg; destruct (Rlt_dec (ae n) (ratio p * ae (lg n))); tauto).
        rewrite LE. destruct (Nat.eqb_spec (lg n) 0); [lia|]. pose proof (lg_lt n). lia.
      - unfold lg. simpl. fold lg. destruct (Rlt_dec (ae n) (ratio p * ae (lg n))); tauto. }
    split; [exact ST|]. destruct ST as (_ & _ & NI & _). rewrite NI. unfold stuck, stalled. fold (idl (S n)).
    split; intros S.
    + destruct S as (S1 & S2). apply Nat.leb_le in S1, S2. rewrite S1, S2. reflexivity.
    + destruct (Nat.leb_spec (min_quit_iter p) (Datatypes.S n)); simpl; auto. destruct (Nat.leb_spec (quit_no p) (idl (Datatypes.S n))); auto. tauto.
Qed.
Lemma run_spec fuel : forall i m, st i m ->
  exists m' r n, mon_run p att i fuel m = Ok (m', r) /\ hist m' = map att (seq 0 n) /\ (i <= n <= i + fuel)%nat /\
    (forall j, (i < j < n)%nat -> ~ okay (j - 1) /\ ~ stuck j) /\
    match r with
    | Converged => (i < n)%nat /\ okay (n - 1) /\ converged m' = true
    | NotConverged => (i < n)%nat /\ ~ okay (n - 1) /\ stuck n /\ converged m' = false
    | Continue => (n = i + fuel)%nat /\ (i < n -> ~ okay (n - 1) /\ ~ stuck n)%nat /\ converged m' = false
    end.
Proof.
  induction fuel; intros i m S; cbn [mon_run].
  - exists m, Continue, i. destruct S as (S1 & S2 & _). splits; auto; try lia; intros; lia.
  - destruct (test_step i m S) as (T1 & T2).
    destruct (tol_okay i) as [O|O].
    + destruct (T1 O) as (m' & -> & H1 & H2). exists m', Converged, (Datatypes.S i). splits; auto; try lia.
      replace (Datatypes.S i - 1)%nat with i by lia. auto.
    + destruct (T2 O) as (m' & ST & T3 & T4).
      assert (SD : stuck (Datatypes.S i) \/ ~ stuck (Datatypes.S i)).
      { unfold stuck, stalled. destruct (le_dec (min_quit_iter p) (Datatypes.S i)); [|right; lia].
        destruct (le_dec (quit_no p) (idle (ratio p) ae (Datatypes.S i))); [left; auto|right; lia]. }
      destruct SD as [SD|SD].
      * rewrite (T3 SD). exists m', NotConverged, (Datatypes.S i). destruct ST as (S1 & S2 & _). splits; auto; try lia.
        replace (Datatypes.S i - 1)%nat with i by lia. auto.
      * rewrite (T4 SD). destruct (IHfuel (Datatypes.S i) m' ST) as (m2 & r & n & R1 & R2 & R3 & R4 & R5).
        exists m2, r, n. splits; auto; try lia.
        -- intros j HJ. destruct (Nat.eq_dec j (Datatypes.S i)) as [->|N]; [|apply R4; lia].
           replace (Datatypes.S i - 1)%nat with i by lia. auto.
        -- destruct r.
           ++ splits; try tauto; lia.
           ++ splits; try tauto; lia.
           ++ destruct R5 as (-> & R5 & R6). split; [lia|]. split; auto. intros HI. destruct fuel; [|apply R5; lia].
              replace (Datatypes.S i + 0)%nat with (Datatypes.S i) by lia. replace (Datatypes.S i - 1)%nat with i by lia. auto.
Qed.
End Run.

(** C38: the monitor stops at the first round whose attempt meets the tolerance (reported as converged) or at
    which the sequence has stalled (reported as not converged), and at no other. *)
Lemma monitor_stops_main :
  forall (E : Type) p (att : nat -> R * R * E) fuel, 0 <= ratio p <= 1 -> (forall i, 0 <= e_ae (att i)) ->
  let good := within (abstol p) (reltol p) (force_nonzero p = true) (fun i => e_ae (att i)) (fun i => e_y (att i)) in
  let stop := stalled (ratio p) (fun i => e_ae (att i)) (Nat.max 2 (quit_iter p)) (quit_no p) in
  exists m r n, mon_run p att 0 fuel mon_init = Ok (m, r) /\ hist m = map att (seq 0 n) /\ (n <= fuel)%nat /\
    (forall j, (1 <= j < n)%nat -> ~ good (j - 1)%nat /\ ~ stop j) /\
    match r with
    | Converged => (1 <= n)%nat /\ good (n - 1)%nat
    | NotConverged => (1 <= n)%nat /\ ~ good (n - 1)%nat /\ stop n
    | Continue => n = fuel /\ ((1 <= n)%nat -> ~ good (n - 1)%nat /\ ~ stop n)
    end.
Proof.
  intros E p att fuel Hr Ha good stop.
  destruct (run_spec E p att Hr Ha fuel 0 mon_init) as (m & r & n & H1 & H2 & H3 & H4 & H5).
  { unfold st. splits; auto. }
  exists m, r, n. splits; auto; try lia. destruct r; tauto.
Qed.
(** C38: what the caller returns: the last attempt when it met the tolerance, otherwise an attempt such that no
    other is better by more than the factor err_decr. *)
Lemma monitor_result_main :
  forall (E : Type) big decr p (att : nat -> R * R * E) fuel, 0 <= ratio p <= 1 -> (forall i, 0 <= e_ae (att i)) ->
  0 <= big -> 0 <= decr <= 1 -> (1 <= fuel)%nat ->
  let good := within (abstol p) (reltol p) (force_nonzero p = true) (fun i => e_ae (att i)) (fun i => e_y (att i)) in
  exists k n, mon_result big decr p att fuel = Ok (att k) /\ (k < n <= fuel)%nat /\
    ((exists j, (j < n)%nat /\ good j) -> good k /\ forall j, (j < k)%nat -> ~ good j) /\
    (good k \/ forall j, (j < n)%nat -> decr * relative big (e_ae (att k)) (e_y (att k)) <= relative big (e_ae (att j)) (e_y (att j))).
Proof.
  intros E big decr p att fuel Hr Ha HB HD HF good.
  destruct (run_spec E p att Hr Ha fuel 0 mon_init) as (m & r & n & H1 & H2 & H3 & H4 & H5).
  { unfold st. splits; auto. }
  assert (N1 : (1 <= n)%nat) by (destruct r; lia).
  unfold mon_result. rewrite H1. cbn [rbind fst].
  destruct (converged m) eqn:EC.
  - assert (G : good (n - 1)%nat) by (destruct r; destruct H5 as (A1 & A2 & A3); [exact A2|destruct A3; congruence|congruence]).
    exists (n - 1)%nat, n. splits; auto; try lia.
    + unfold mon_best. rewrite EC, H2, map_length, seq_length, hist_nth by lia. auto.
    + intros _. split; auto. intros j Hj. destruct (H4 (S j)) as (H6 & _); [lia|]. simpl in H6. rewrite Nat.sub_0_r in H6. exact H6.
  - assert (NG : forall j, (j < n)%nat -> ~ good j).
    { intros j Hj. destruct (Nat.eq_dec j (n - 1)) as [->|N].
      - destruct r; [destruct H5 as (? & ? & ?); congruence|tauto|apply H5; lia].
      - destruct (H4 (S j)) as (H6 & _); [lia|]. simpl in H6. rewrite Nat.sub_0_r in H6. exact H6. }
    destruct (best_reported_main E big decr m) as (B1 & _ & B3).
    destruct B1 as (b & Eb); [rewrite H2; destruct n; [lia|discriminate]|].
    assert (IB := B3 b Eb). rewrite H2 in IB. apply in_map_iff in IB. destruct IB as (k & <- & Hk). apply in_seq in Hk.
    exists k, n. splits; auto; try lia.
    + intros (j & Hj & G). exfalso. eapply NG; eauto.
    + right. intros j Hj. apply (best_near_optimal_main E big decr m (att k)); auto.
      * intros t Ht. rewrite H2 in Ht. apply in_map_iff in Ht. destruct Ht as (q & <- & _). auto.
      * rewrite H2. apply in_map. apply in_seq. lia.
Qed.

Lemma lg_mono rt (ae : nat -> R) : 0 <= rt <= 1 -> (forall i, 0 <= ae i) -> forall n N, (n <= N)%nat ->
  (last_improved rt ae n <= last_improved rt ae N \/ n = N)%nat /\
  (last_improved rt ae N <> last_improved rt ae n -> ae (last_improved rt ae N) <= rt * ae (last_improved rt ae n)).
Proof.
  intros Hr Ha n N H. induction H as [|N H IH]; [split; auto; tauto|].
  assert (LT : forall k, (last_improved rt ae k < k \/ k = 0 /\ last_improved rt ae k = 0)%nat).
  { induction k; simpl; auto. destruct (Rlt_dec _ _); lia. }
  destruct IH as (I1 & I2). cbn [last_improved]. destruct (Rlt_dec (ae N) (rt * ae (last_improved rt ae N))) as [L|L].
  - split; [left; pose proof (LT n); lia|]. intros _.
    destruct (Nat.eq_dec (last_improved rt ae N) (last_improved rt ae n)) as [EE|NE]; [rewrite EE in L; lra|].
    specialize (I2 NE). pose proof (Ha (last_improved rt ae N)). pose proof (Ha (last_improved rt ae n)). nra.
  - split; [left; destruct I1 as [I1|I1]; [exact I1|subst; auto]|exact I2].
Qed.
(** C38: the adaptive loop always ends: with a positive absolute tolerance and an improvement factor below one,
    every infinite sequence of attempts is cut off after finitely many rounds. *)
Lemma monitor_terminates_main :
  forall (E : Type) p (att : nat -> R * R * E), 0 <= ratio p < 1 -> 0 < abstol p -> force_nonzero p = false ->
  (forall i, 0 <= e_ae (att i)) ->
  exists n, forall fuel, (n <= fuel)%nat -> exists m r, mon_run p att 0 fuel mon_init = Ok (m, r) /\ r <> Continue.
Proof.
  intros E p att Hr HA HF Ha. set (ae := fun i => e_ae (att i)). set (lg := last_improved (ratio p) ae).
  set (q := (quit_no p + Nat.max 2 (quit_iter p) + 1)%nat).
  assert (LT : forall k, (lg k < k \/ k = 0 /\ lg k = 0)%nat).
  { unfold lg. induction k; simpl; auto. destruct (Rlt_dec _ _); lia. }
  (* after j blocks of q+1 rounds either we stopped, or the error decreased j times *)
  destruct (pow_lt_1_zero (ratio p) ltac:(rewrite Rabs_pos_eq; lra) (abstol p / (ae 0%nat + 1))) as (K & HK).
  { apply Rdiv_lt_0_compat; auto. pose proof (Ha 0%nat). unfold ae. lra. }
  exists (K * (q + 1) + 2)%nat. intros fuel HFuel.
  destruct (monitor_stops_main E p att fuel ltac:(lra) Ha) as (m & r & n & H1 & H2 & H3 & H4 & H5).
  exists m, r. split; auto. intros ->. destruct H5 as (-> & H5).
  assert (NS : forall j, (1 <= j <= fuel)%nat -> ~ within (abstol p) (reltol p) (force_nonzero p = true) ae (fun i => e_y (att i)) (j - 1) /\
       ~ stalled (ratio p) ae (Nat.max 2 (quit_iter p)) (quit_no p) j).
  { intros j Hj. destruct (Nat.eq_dec j fuel) as [->|N]; [apply H5; lia|apply H4; lia]. }
  assert (IMP : forall j, (j <= K)%nat -> ae (lg (j * (q + 1) + 1)%nat) <= ratio p ^ j * ae 0%nat).
  { induction j; intros Hj.
    - simpl. unfold lg. simpl. destruct (Rlt_dec _ _); lra.
    - specialize (IHj ltac:(lia)). set (a := (j * (q + 1) + 1)%nat) in *. set (b := (S j * (q + 1) + 1)%nat).
      assert (AB : (b = a + q + 1)%nat) by (unfold a, b; lia).
      assert (BF : (b <= fuel)%nat). { unfold b. assert (S j * (q + 1) <= K * (q + 1))%nat by (apply Nat.mul_le_mono_r; lia). lia. }
      destruct (NS b) as (_ & S1); [lia|].
      assert (I : (idle (ratio p) ae b < quit_no p)%nat). { unfold stalled in S1. unfold q in AB. lia. }
      assert (LB : lg b <> lg a). { unfold idle in I. fold lg in I. destruct (Nat.eqb_spec (lg b) 0); pose proof (LT a); unfold q in AB; lia. }
      destruct (lg_mono (ratio p) ae ltac:(lra) Ha a b ltac:(lia)) as (_ & MM). specialize (MM LB). fold lg in MM.
      eapply Rle_trans; [exact MM|]. simpl. rewrite Rmult_assoc. apply Rmult_le_compat_l; [lra|exact IHj]. }
  specialize (IMP K ltac:(lia)). specialize (HK K ltac:(lia)).
  pose proof (LT (K * (q + 1) + 1)%nat) as L1. set (k := lg (K * (q + 1) + 1)%nat) in *.
  destruct (NS (S k)) as (W & _); [lia|]. apply W. replace (S k - 1)%nat with k by lia.
  split; [|rewrite HF; discriminate]. left. fold (ae k).
  rewrite Rabs_pos_eq in HK by (apply pow_le; lra).
  pose proof (Ha 0%nat) as A0. fold (ae 0%nat) in A0.
  assert (ratio p ^ K * (ae 0%nat + 1) < abstol p) by (apply (Rmult_lt_compat_r (ae 0%nat + 1)) in HK; [|lra]; unfold Rdiv in HK; rewrite Rmult_assoc, Rinv_l, Rmult_1_r in HK; lra).
  pose proof (pow_le (ratio p) K ltac:(lra)). lra.
Qed.
