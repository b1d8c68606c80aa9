(** Main lemmas: wide intervals (C51) and near-duplicate removal (C52). *)
From Coq Require Import Reals ZArith Lra Lia List Bool Sorted.
From Coquelicot Require Import Coquelicot.
From Verif Require Import Base Piecewise PiecewiseFacts2 Wide WideSpec.
Import List ListNotations.
Open Scope R_scope.

Lemma ln10 : 0 < ln 10.
Proof. rewrite <- ln_1. apply ln_increasing; lra. Qed.
Lemma pow_log x : 0 < x -> pow10 (log10 x) = x.
Proof. intros H. unfold pow10, log10, Rpower. pose proof ln10. unfold Rdiv. rewrite Rmult_assoc, Rinv_l, Rmult_1_r by lra. apply exp_ln; auto. Qed.
Lemma pow10_lt x y : x < y -> pow10 x < pow10 y.
Proof. intros. apply Rpower_lt; lra. Qed.
Lemma pow10_plus x y : pow10 (x + y) = pow10 x * pow10 y.
Proof. apply Rpower_plus. Qed.
Lemma log10_lt x y : 0 < x -> x < y -> log10 x < log10 y.
Proof. intros. unfold log10. pose proof ln10. apply Rmult_lt_compat_r; [apply Rinv_0_lt_compat; auto|]. apply ln_increasing; auto. Qed.
Lemma rceil_ge x : x <= IZR (rceil x).
Proof. unfold rceil. rewrite opp_IZR. destruct (base_Int_part (- x)) as (H & _). lra. Qed.

Lemma set_first_id a n (g : nat -> R) : g 0%nat = a -> set_first a (map g (seq 0 (n + 1))) = map g (seq 0 (n + 1)).
Proof. intros E. rewrite Nat.add_comm. simpl. rewrite E. auto. Qed.
Lemma set_last_id b n (g : nat -> R) : g n = b -> set_last b (map g (seq 0 (n + 1))) = map g (seq 0 (n + 1)).
Proof.
  intros E. rewrite seq_app, map_app. simpl. rewrite E. unfold set_last.
  destruct (map g (seq 0 n) ++ [b]) eqn:X; [destruct (map g (seq 0 n)); discriminate|]. rewrite <- X. rewrite removelast_last. auto.
Qed.
Lemma consecutive_map (g : nat -> R) n : forall k, consecutive (map g (seq k (n + 1))) = map (fun i => (g i, g (S i))) (seq k n).
Proof. induction n; intros k; auto. specialize (IHn (S k)). simpl in *. destruct n; simpl in *; [auto|]. rewrite IHn. auto. Qed.
Lemma tiles_map (g : nat -> R) n : (forall i, (i < n)%nat -> g i < g (S i)) -> tiles (g 0%nat) (g n) (map (fun i => (g i, g (S i))) (seq 0 n)).
Proof.
  assert (G : forall n k, (forall i, (k <= i < k + n)%nat -> g i < g (S i)) -> tiles (g k) (g (k + n)%nat) (map (fun i => (g i, g (S i))) (seq k n))).
  { clear. induction n; intros k H; simpl; [rewrite Nat.add_0_r; auto|]. splits; auto; [apply H; lia|].
    replace (k + S n)%nat with (S k + n)%nat by lia. apply IHn. intros i Hi. apply H. lia. }
  intros H. apply (G n 0%nat). intros i Hi. apply H. lia.
Qed.

Lemma log_ratio_pos w r : 1 < w -> w < r -> 1 < log10 r / log10 w.
Proof.
  intros H1 H2. assert (0 < log10 w) by (unfold log10; apply Rdiv_lt_0_compat; [rewrite <- ln_1; apply ln_increasing; lra|apply ln10]).
  apply (Rmult_lt_reg_r (log10 w)); auto. unfold Rdiv. rewrite Rmult_assoc, Rinv_l, Rmult_1_l, Rmult_1_r by lra. apply log10_lt; lra.
Qed.
Lemma noi w r : 1 < w -> w < r -> (1 <= number_of_intervals w r)%nat /\ log10 r / INR (number_of_intervals w r) <= log10 w.
Proof.
  intros H1 H2. pose proof (log_ratio_pos w r H1 H2) as L. unfold number_of_intervals. set (z := rceil (log10 r / log10 w)).
  assert (C : log10 r / log10 w <= IZR z) by apply rceil_ge.
  assert (Z1 : (1 < z)%Z) by (apply lt_IZR; lra). split; [lia|].
  rewrite INR_IZR_INZ, Z2Nat.id by lia.
  assert (0 < log10 w) by (unfold log10; apply Rdiv_lt_0_compat; [rewrite <- ln_1; apply ln_increasing; lra|apply ln10]).
  assert (0 < IZR z) by (apply IZR_lt; lia).
  apply (Rmult_le_reg_r (IZR z)); auto. unfold Rdiv at 1. rewrite Rmult_assoc, Rinv_l, Rmult_1_r by lra.
  apply (Rmult_le_compat_r (log10 w)) in C; [|lra]. unfold Rdiv in C. rewrite Rmult_assoc, Rinv_l in C by lra. lra.
Qed.
Lemma log10_div x y : 0 < x -> 0 < y -> log10 x - log10 y = log10 (x / y).
Proof. intros. unfold log10. rewrite ln_div by auto. unfold Rdiv. ring. Qed.

Lemma nodes_pos_spec w a b : 1 < w -> 0 < a -> w < b / a ->
  tiles a b (consecutive (nodes_pos w a b)) /\ forall u v, In (u, v) (consecutive (nodes_pos w a b)) -> 0 < u /\ v / u <= w.
Proof.
  intros Hw Ha Hr. set (n := number_of_intervals w (b / a)).
  destruct (noi w (b / a) Hw Hr) as (N1 & N2). fold n in N1, N2.
  assert (Hb : 0 < b). { destruct (Rlt_dec 0 b); auto. exfalso. assert (b / a <= 0) by (apply Rmult_le_0_r; [lra|left; apply Rinv_0_lt_compat; auto]). lra. }
  set (h := (log10 b - log10 a) / INR n). set (g := fun i => pow10 (log10 a + INR i * h)).
  assert (NP : 0 < INR n) by (apply lt_0_INR; lia).
  assert (HL : h = log10 (b / a) / INR n) by (unfold h; rewrite log10_div; auto).
  assert (Hh : 0 < h).
  { rewrite HL. apply Rdiv_lt_0_compat; auto. unfold log10. apply Rdiv_lt_0_compat; [rewrite <- ln_1; apply ln_increasing; lra|apply ln10]. }
  assert (G0 : g 0%nat = a) by (unfold g; simpl; rewrite Rmult_0_l, Rplus_0_r; apply pow_log; auto).
  assert (Gn : g n = b).
  { unfold g, h. replace (log10 a + INR n * ((log10 b - log10 a) / INR n)) with (log10 b) by (field; lra). apply pow_log; auto. }
  assert (E : consecutive (nodes_pos w a b) = map (fun i => (g i, g (S i))) (seq 0 n)).
  { unfold nodes_pos, logspace. fold n. fold h. fold g. rewrite set_first_id, set_last_id by auto. apply consecutive_map. }
  rewrite E. split.
  - rewrite <- G0, <- Gn at 1. apply tiles_map. intros i _. apply pow10_lt. rewrite S_INR. nra.
  - intros u v H. apply in_map_iff in H. destruct H as (i & X & _). injection X as <- <-.
    assert (P : 0 < g i) by (unfold g, pow10, Rpower; apply exp_pos). split; auto.
    unfold g at 1. rewrite S_INR. replace (log10 a + (INR i + 1) * h) with (log10 a + INR i * h + h) by ring.
    rewrite pow10_plus. fold (g i). replace (g i * pow10 h / g i) with (pow10 h) by (field; lra).
    rewrite <- (pow_log w) by lra. destruct (Rle_lt_or_eq_dec h (log10 w)) as [L|L]; [lra|left; apply pow10_lt; auto|rewrite L; lra].
Qed.
Lemma nodes_neg_spec w a b : 1 < w -> b < 0 -> w < a / b ->
  tiles a b (consecutive (nodes_neg w a b)) /\ forall u v, In (u, v) (consecutive (nodes_neg w a b)) -> v < 0 /\ u / v <= w.
Proof.
  intros Hw Hb Hr. set (n := number_of_intervals w (a / b)).
  destruct (noi w (a / b) Hw Hr) as (N1 & N2). fold n in N1, N2.
  assert (Ha : a < 0). { destruct (Rlt_dec a 0); auto. exfalso. assert (a / b <= 0). { unfold Rdiv. assert (/ b < 0) by (apply Rinv_lt_0_compat; auto). nra. } lra. }
  set (A := Rabs a). set (B := Rabs b). assert (EA : A = - a) by (apply Rabs_left; auto). assert (EB : B = - b) by (apply Rabs_left; auto).
  set (h := (log10 B - log10 A) / INR n). set (g := fun i => - pow10 (log10 A + INR i * h)).
  assert (NP : 0 < INR n) by (apply lt_0_INR; lia).
  assert (HAB : A / B = a / b) by (rewrite EA, EB; field; lra).
  assert (HL : - h = log10 (a / b) / INR n).
  { rewrite <- HAB, <- log10_div by lra. unfold h. field. lra. }
  assert (Hh : 0 < - h).
  { rewrite HL. apply Rdiv_lt_0_compat; auto. unfold log10. apply Rdiv_lt_0_compat; [rewrite <- ln_1; apply ln_increasing; lra|apply ln10]. }
  assert (G0 : g 0%nat = a) by (unfold g; simpl; rewrite Rmult_0_l, Rplus_0_r; rewrite pow_log; lra).
  assert (Gn : g n = b).
  { unfold g, h. replace (log10 A + INR n * ((log10 B - log10 A) / INR n)) with (log10 B) by (field; lra). rewrite pow_log; lra. }
  assert (E : consecutive (nodes_neg w a b) = map (fun i => (g i, g (S i))) (seq 0 n)).
  { unfold nodes_neg, logspace. fold n A B. fold h. rewrite map_map. fold g. rewrite set_first_id, set_last_id by auto. apply consecutive_map. }
  rewrite E. split.
  - rewrite <- G0, <- Gn at 1. apply tiles_map. intros i _. unfold g. apply Ropp_lt_contravar. apply pow10_lt. rewrite S_INR. nra.
  - intros u v H. apply in_map_iff in H. destruct H as (i & X & _). injection X as <- <-.
    assert (P : forall i, g i < 0) by (intros j; unfold g, pow10, Rpower; pose proof (exp_pos ((log10 A + INR j * h) * ln 10)); lra). split; auto.
    assert (EG : g i = g (S i) * pow10 (- h)).
    { unfold g. rewrite S_INR. rewrite Ropp_mult_distr_l_reverse. f_equal. rewrite <- pow10_plus. f_equal. ring. }
    rewrite EG. pose proof (P (S i)). replace (g (S i) * pow10 (- h) / g (S i)) with (pow10 (- h)) by (field; lra).
    rewrite <- (pow_log w) by lra. destruct (Rle_lt_or_eq_dec (- h) (log10 w)) as [L|L]; [lra|left; apply pow10_lt; auto|rewrite L; lra].
Qed.

(** C51: for finite ends the intervals integrated start at a, end at b, are nonempty and consecutive. *)
Lemma wide_tiles_main :
  forall (w a b : R), 1 < w -> a < b -> tiles a b (wide_intervals w a b).
Proof.
  intros w a b Hw Hab. unfold wide_intervals. simpl wide_end.
  assert (T : tiles a b [(a, b)]) by (simpl; auto).
  destruct (reqP a 0); simpl; auto. destruct (reqP b 0); simpl; auto.
  destruct (rltP w (b / a)) as [L|L]; destruct (rltP 0 a) as [P|P]; destruct (rltP a b); simpl; try lra.
  - apply nodes_pos_spec; auto.
  - destruct (rltP (b / a) (1 / w)); simpl; auto. destruct (rltP b 0); auto. apply nodes_neg_spec; auto.
    replace (a / b) with (/ (b / a)) by (field; lra). replace w with (/ (1 / w)) by (field; lra).
    apply Rinv_lt_contravar; auto. apply Rmult_lt_0_compat; [|apply Rdiv_lt_0_compat; lra].
    replace (b / a) with ((- b) / (- a)) by (field; lra). apply Rdiv_lt_0_compat; lra.
  - destruct (rltP (b / a) (1 / w)); simpl; auto. destruct (rltP b 0); auto. lra.
  - destruct (rltP (b / a) (1 / w)); simpl; auto. destruct (rltP b 0); auto. apply nodes_neg_spec; auto.
    replace (a / b) with (/ (b / a)) by (field; lra). replace w with (/ (1 / w)) by (field; lra).
    apply Rinv_lt_contravar; auto. apply Rmult_lt_0_compat; [|apply Rdiv_lt_0_compat; lra].
    replace (b / a) with ((- b) / (- a)) by (field; lra). apply Rdiv_lt_0_compat; lra.
Qed.
(** C51: an interval not touching or crossing zero is cut so that the ends of each part differ at most by the factor
    wide_cond. *)
Lemma wide_ratio_main :
  forall (w a b u v : R), 1 < w -> (0 < a < b -> In (u, v) (wide_intervals w a b) -> v / u <= w) /\
  (a < b < 0 -> In (u, v) (wide_intervals w a b) -> u / v <= w).
Proof.
  intros w a b u v Hw. unfold wide_intervals. simpl wide_end. split; intros H.
  - destruct (reqP a 0); [lra|]. destruct (reqP b 0); [lra|]. simpl.
    destruct (rltP 0 a); [|lra]. destruct (rltP a b); [|lra]. destruct (rltP w (b / a)) as [L|L]; simpl.
    + apply nodes_pos_spec; auto; lra.
    + destruct (rltP b 0); [lra|]. rewrite andb_false_r. intros [X|[]]. injection X as <- <-. lra.
  - destruct (reqP a 0); [lra|]. destruct (reqP b 0); [lra|]. simpl.
    destruct (rltP 0 a); [lra|]. destruct (rltP a b); [|lra]. destruct (rltP b 0); [|lra]. rewrite andb_false_r. simpl.
    assert (P : 0 < b / a) by (replace (b / a) with ((- b) / (- a)) by (field; lra); apply Rdiv_lt_0_compat; lra).
    destruct (rltP (b / a) (1 / w)) as [L|L]; simpl.
    + apply nodes_neg_spec; auto; try lra. replace (a / b) with (/ (b / a)) by (field; lra). replace w with (/ (1 / w)) by (field; lra).
      apply Rinv_lt_contravar; auto. apply Rmult_lt_0_compat; auto. apply Rdiv_lt_0_compat; lra.
    + intros [X|[]]. injection X as <- <-. replace (a / b) with (/ (b / a)) by (field; lra). replace w with (/ (1 / w)) by (field; lra).
      apply Rinv_le_contravar; [apply Rdiv_lt_0_compat; lra|lra].
Qed.
(** C51: so the sum of the exact integrals over the parts is the integral over the interval. *)
Lemma wide_integral_main :
  forall f (w a b : R), 1 < w -> a < b -> ex_RInt f a b -> integrate_wide (RInt f) w a b = RInt f a b.
Proof.
  intros f w a b Hw Hab HI. pose proof (wide_tiles_main w a b Hw Hab) as T. unfold integrate_wide.
  assert (G : forall l a s, tiles a b l -> a <= b -> ex_RInt f a b ->
    fold_left (fun s uv => s + RInt f (fst uv) (snd uv)) l s = s + RInt f a b /\ a <= b).
  { clear. induction l as [|[u v] l IH]; intros a s T L HI; simpl in *.
    - subst. rewrite RInt_point. split; [|lra]. unfold zero; simpl. lra.
    - destruct T as (-> & L' & T).
      assert (LE : forall l a, tiles a b l -> a <= b).
      { clear. induction l as [|[u v] l IH]; intros a T; simpl in T; [lra|]. destruct T as (-> & L & T). apply IH in T. lra. }
      pose proof (LE l v T) as LV.
      assert (H1 : ex_RInt f a v) by (apply (ex_RInt_Chasles_1 (V := R_CompleteNormedModule)) with (c := b); auto; lra).
      assert (H2 : ex_RInt f v b) by (apply (ex_RInt_Chasles_2 (V := R_CompleteNormedModule)) with (a := a); auto; lra).
      destruct (IH v (s + RInt f a v) T LV H2) as (E & _). rewrite E. split; [|lra].
      rewrite <- (RInt_Chasles (V := R_CompleteNormedModule) f a v b H1 H2). unfold plus; simpl. lra. }
  destruct (G (wide_intervals w a b) a 0 T ltac:(lra) HI) as (E & _). rewrite E. lra.
Qed.

(** ** near-duplicates *)
Lemma eps_keep_sub eps l : forall prev x, In x (eps_keep eps prev l) -> In x l.
Proof. induction l as [|y t IH]; intros prev x; simpl; auto. destruct (_ || _); simpl; [intros [H|H]; eauto|eauto]. Qed.
Lemma eps_keep_sorted eps l : forall prev, StronglySorted Rbar_lt l -> StronglySorted Rbar_lt (eps_keep eps prev l).
Proof.
  induction l as [|y t IH]; intros prev H; simpl; [constructor|]. inversion H as [|? ? S F]; subst.
  destruct (_ || _); auto. constructor; auto. rewrite Forall_forall in *. intros x Hx. apply eps_keep_sub in Hx. auto.
Qed.
Lemma eps_keep_gap eps l : forall prev, StronglySorted Rbar_lt (prev :: l) -> 
  forall (u v : R), In (Finite v) (eps_keep eps prev l) -> In (Finite u) (prev :: eps_keep eps prev l) -> u < v -> eps < (v - u) / Rmax 1 (Rabs v).
Proof.
  assert (DIV : forall v z, z * / Rmax 1 (Rabs v) = z / Rmax 1 (Rabs v)) by reflexivity.
  induction l as [|y t IH]; intros prev S u v Hv Hu L; [simpl in Hv; tauto|].
  inversion S as [|? ? S1 F1]; subst. inversion S1 as [|? ? S2 F2]; subst. rewrite Forall_forall in F1, F2.
  assert (MP : 0 < / Rmax 1 (Rabs v)) by (apply Rinv_0_lt_compat; pose proof (Rmax_l 1 (Rabs v)); lra).
  assert (KEY : gap_ok eps prev (Finite v) = true -> In (Finite u) (prev :: eps_keep eps (Finite v) t) -> eps < (v - u) / Rmax 1 (Rabs v) \/ ~ (Finite u = prev)).
  { intros G _. destruct prev as [p| |]; [|right; discriminate|right; discriminate].
    simpl in G. apply rlt_true in G. destruct (Req_dec u p) as [->|N]; auto. right. intros X. injection X. auto. }
  simpl in Hv, Hu.
  assert (SP : StronglySorted Rbar_lt (prev :: t)) by (constructor; auto; rewrite Forall_forall; intros z Hz; apply F1; simpl; auto).
  destruct (negb (is_fin y) || gap_ok eps prev y) eqn:EK; simpl in Hv, Hu.
  - destruct Hv as [Hv|Hv].
    + subst y. simpl in EK. destruct Hu as [Hu|[Hu|Hu]].
      * subst prev. simpl in EK. apply rlt_true in EK. auto.
      * injection Hu as ->. lra.
      * apply eps_keep_sub in Hu. specialize (F2 _ Hu). simpl in F2. lra.
    + destruct Hu as [Hu|[Hu|Hu]].
      * (* prev and a later kept element: the one between is further right than prev *)
        subst prev. destruct y as [z| |].
        -- assert (LZ : u < z) by (apply (F1 (Finite z)); simpl; auto).
           assert (ZV : z < v) by (apply (F2 (Finite v)); apply eps_keep_sub in Hv; auto).
           pose proof (IH (Finite z) S1 z v Hv ltac:(simpl; auto) ZV) as G. eapply Rlt_trans; [exact G|]. unfold Rdiv. nra.
        -- apply eps_keep_sub in Hv. specialize (F2 _ Hv). simpl in F2. tauto.
        -- specialize (F1 m_infty ltac:(simpl; auto)). simpl in F1. tauto.
      * subst y. apply (IH (Finite u) S1 u v); simpl; auto.
      * apply (IH y S1 u v); simpl; auto.
  - apply orb_false_iff in EK. destruct EK as (EK1 & EK2).
    destruct Hu as [Hu|Hu].
    + subst prev. destruct y as [z| |]; try discriminate EK1.
      assert (LZ : u < z) by (apply (F1 (Finite z)); simpl; auto).
      assert (ZV : z < v) by (apply (F2 (Finite v)); apply eps_keep_sub in Hv; auto).
      pose proof (IH (Finite z) S1 z v Hv ltac:(simpl; auto) ZV) as G. eapply Rlt_trans; [exact G|]. unfold Rdiv. nra.
    + apply (IH y S1 u v); simpl; auto.
Qed.
(** C52: the elements returned are elements of the input, in increasing order, any two finite ones further apart
    than eps relative to the larger one (in the order), and infinite inputs are kept. *)
Lemma epsunique_separated_main :
  forall eps tab, StronglySorted Rbar_lt (epsunique eps tab) /\
  (forall x, In x (epsunique eps tab) -> In x tab) /\
  (forall u v : R, In (Finite u) (epsunique eps tab) -> In (Finite v) (epsunique eps tab) -> u < v -> eps < (v - u) / Rmax 1 (Rabs v)) /\
  (forall x, In x tab -> is_finite x \/ In x (epsunique eps tab)).
Proof.
  intros eps tab. unfold epsunique. pose proof (np_unique_sorted tab) as S.
  assert (M : forall x, In x (np_unique tab) <-> In x tab) by (intros; apply np_unique_In).
  destruct (np_unique tab) as [|x0 t] eqn:E.
  - splits; try (constructor; fail); simpl; try tauto. intros x Hx. apply M in Hx. simpl in Hx. tauto.
  - inversion S as [|? ? S1 F]; subst. rewrite Forall_forall in F. splits.
    + constructor; [apply eps_keep_sorted; auto|]. rewrite Forall_forall. intros x Hx. apply eps_keep_sub in Hx. auto.
    + intros x [<-|Hx]; apply M; simpl; auto. right. eapply eps_keep_sub; eauto.
    + intros u v Hu [Hv|Hv] L.
      * exfalso. subst x0. destruct Hu as [Hu|Hu]; [injection Hu as ->; lra|]. apply eps_keep_sub in Hu. specialize (F _ Hu). simpl in F. lra.
      * apply (eps_keep_gap eps t x0); auto.
    + intros x Hx. apply M in Hx. destruct Hx as [<-|Hx]; [right; simpl; auto|].
      destruct x as [r| |]; [left; reflexivity| |]; right; right; clear - Hx; revert x0; induction t as [|y t IH]; intros x0; simpl in *; try tauto;
        destruct Hx as [->|Hx]; simpl; auto; destruct (_ || _); simpl; auto.
Qed.
(** C52: an element dropped is close to the previous distinct element of the input. *)
Lemma epsunique_dropped_main :
  forall eps tab (v : R), In (Finite v) tab -> In (Finite v) (epsunique eps tab) \/
  exists u : R, In (Finite u) tab /\ u < v /\ (v - u) / Rmax 1 (Rabs v) <= eps /\ forall z : R, In (Finite z) tab -> z <= u \/ v <= z.
Proof.
  intros eps tab v Hv. unfold epsunique. pose proof (np_unique_sorted tab) as S.
  assert (M : forall x, In x (np_unique tab) <-> In x tab) by (intros; apply np_unique_In). apply M in Hv.
  destruct (np_unique tab) as [|x0 t] eqn:E; [simpl in Hv; tauto|].
  assert (G : forall t x0 pre, StronglySorted Rbar_lt (x0 :: t) -> (forall x, In x pre -> Rbar_le x x0) -> In (Finite v) t ->
     In (Finite v) (eps_keep eps x0 t) \/
     exists u : R, In (Finite u) (x0 :: t) /\ u < v /\ (v - u) / Rmax 1 (Rabs v) <= eps /\ forall z : R, In (Finite z) (pre ++ x0 :: t) -> z <= u \/ v <= z).
  { clear. induction t as [|y t IH]; intros x0 pre S P Hv; [simpl in Hv; tauto|].
    inversion S as [|? ? S1 F1]; subst. inversion S1 as [|? ? S2 F2]; subst. rewrite Forall_forall in F1, F2.
    destruct Hv as [->|Hv].
    - simpl. destruct (gap_ok eps x0 v) eqn:EG; [left; simpl; auto|]. right.
      destruct x0 as [u| |]; simpl in EG; try discriminate. apply rlt_false in EG.
      exists u. splits; simpl; auto.
      + apply (F1 (Finite v)). simpl; auto.
      + intros z Hz. apply in_app_or in Hz. destruct Hz as [Hz|[Hz|[Hz|Hz]]].
        * left. apply (P _ Hz).
        * injection Hz as ->. lra.
        * injection Hz as ->. lra.
        * right. specialize (F2 _ Hz). simpl in F2. lra.
    - destruct (IH y (pre ++ [x0]) S1) as [H|(u & H1 & H2 & H3 & H4)]; auto.
      + intros x Hx. apply in_app_or in Hx. assert (LY : Rbar_lt x0 y) by (apply F1; simpl; auto).
        destruct Hx as [Hx|[<-|[]]]; [|apply Rbar_lt_le; auto]. eapply Rbar_le_trans; [apply P; auto|apply Rbar_lt_le; auto].
      + left. simpl. destruct (_ || _); simpl; auto.
      + right. exists u. splits; auto; [simpl; simpl in H1; tauto|]. intros z Hz. apply H4. rewrite <- app_assoc. exact Hz. }
  destruct Hv as [->|Hv]; [left; simpl; auto|].
  destruct (G t x0 []) as [H|(u & H1 & H2 & H3 & H4)]; auto.
  - simpl; tauto.
  - left. simpl; auto.
  - right. exists u. splits; auto; [apply M; auto|]. intros z Hz. apply H4. simpl. apply M. auto.
Qed.
(** C52 (finding): nevertheless a whole chain of inputs can be dropped, however long: the last one is then far from
    everything returned. *)
Lemma epsunique_chain_refuted_main :
  exists eps tab (v : R), 0 < eps /\ In (Finite v) tab /\ forall u : R, In (Finite u) (epsunique eps tab) -> 3 * eps < Rabs (v - u) / Rmax 1 (Rabs v).
Proof.
  exists (1/10), [Finite 0; Finite (1/10); Finite (2/10); Finite (3/10); Finite (4/10)], (4/10).
  splits; [lra|simpl; auto 10|].
  assert (E : np_unique [Finite 0; Finite (1/10); Finite (2/10); Finite (3/10); Finite (4/10)] = [Finite 0; Finite (1/10); Finite (2/10); Finite (3/10); Finite (4/10)]).
  { apply sorted_unique_id. repeat constructor; simpl; lra. }
  unfold epsunique. rewrite E. simpl. rewrite !(Rabs_pos_eq (_ / _)) by lra. rewrite !Rmax_left by lra.
  repeat match goal with |- context [rlt ?a ?b] => destruct (rltP a b); [exfalso; lra|simpl] end.
  intros u [Hu|[]]. injection Hu as <-. rewrite Rabs_pos_eq by lra. lra.
Qed.

Definition flags_cover (f g : bool * bool * bool * bool) : Prop := or4 f g = g.
Lemma or4_comm f g : or4 f g = or4 g f.
Proof. destruct f as [[[[] []] []] []], g as [[[[] []] []] []]; reflexivity. Qed.
Lemma or4_assoc f g h : or4 (or4 f g) h = or4 f (or4 g h).
Proof. destruct f as [[[f1 f2] f3] f4], g as [[[g1 g2] g3] g4], h as [[[h1 h2] h3] h4]; simpl; rewrite !orb_assoc; reflexivity. Qed.
Lemma or4_idem f : or4 f f = f.
Proof. destruct f as [[[[] []] []] []]; reflexivity. Qed.
Definition bsorted (l : list brk) : Prop := StronglySorted (fun x y => fst x <= fst y) l.

Lemma ub_loop_spec eps : 0 <= eps -> forall l cur, bsorted (cur :: l) ->
  exists f rest, ub_loop eps cur l = (fst cur, f) :: rest /\ flags_cover (snd cur) f /\
   StronglySorted (fun x y => fst x + eps < fst y) (ub_loop eps cur l) /\
   (forall x, In x (ub_loop eps cur l) -> exists y, In y (cur :: l) /\ fst y = fst x) /\
   (forall x, In x (cur :: l) -> exists y, In y (ub_loop eps cur l) /\ fst y <= fst x <= fst y + eps /\ flags_cover (snd x) (snd y)) /\
   (forall y k, In y (ub_loop eps cur l) -> or4 k (snd y) = snd y -> k = (true, false, false, false) \/ k = (false, true, false, false) \/ k = (false, false, true, false) \/ k = (false, false, false, true) ->
      exists x, In x (cur :: l) /\ fst y <= fst x <= fst y + eps /\ or4 k (snd x) = snd x).
Proof.
  intros He. induction l as [|y t IH]; intros cur S; cbn [ub_loop].
  - exists (snd cur), []. destruct cur as [c f]. cbn [fst snd]. splits; auto.
    + apply or4_idem.
    + repeat constructor.
    + intros x [<-|[]]. exists (c, f). simpl; auto.
    + intros x [<-|[]]. exists (c, f). cbn [fst snd]. splits; simpl; auto; try lra. apply or4_idem.
    + intros z k [<-|[]] H1 H2. exists (c, f). splits; simpl; auto; simpl; lra.
  - inversion S as [|? ? S1 F1]; subst. inversion S1 as [|? ? S2 F2]; subst. rewrite Forall_forall in F1, F2.
    assert (LY : fst cur <= fst y) by (apply F1; simpl; auto).
    destruct (rleP (Rabs (fst y - fst cur)) eps) as [L|L]; rewrite Rabs_pos_eq in L by lra.
    + destruct (IH (fst cur, or4 (snd cur) (snd y))) as (f & rest & E & C & SS & A1 & A2 & A3).
      { constructor; auto. rewrite Forall_forall. intros z Hz. apply F1. simpl; auto. }
      cbn [fst snd] in *. exists f, rest. splits; auto.
      * unfold flags_cover in *. rewrite <- C, <- !or4_assoc, or4_idem. auto.
      * intros x Hx. destruct (A1 x Hx) as (z & [<-|Hz] & Ez); [exists cur|exists z]; simpl; auto.
      * intros x [<-|[<-|Hx]].
        -- destruct (A2 _ (or_introl eq_refl)) as (z & Z1 & Z2 & Z3). exists z. splits; auto; cbn [fst snd] in *; try lra.
           unfold flags_cover in *. rewrite <- Z3, <- !or4_assoc, or4_idem. auto.
        -- exists (fst cur, f). rewrite E. splits; simpl; auto; try lra.
           unfold flags_cover in *. rewrite <- C. rewrite (or4_comm (snd cur) (snd y)), <- !or4_assoc, or4_idem. auto.
        -- destruct (A2 x) as (z & Z); [simpl; auto|]. exists z. auto.
      * intros z k Hz Hk K. destruct (A3 z k Hz Hk K) as (x & [<-|Hx] & X2 & X3); [|exists x; simpl; auto].
        cbn [fst snd] in *.
        assert (D : or4 k (snd cur) = snd cur \/ or4 k (snd y) = snd y).
        { destruct (snd cur) as [[[[] []] []] []], (snd y) as [[[[] []] []] []]; destruct K as [-> | [-> | [-> | ->]]]; simpl in *; auto; discriminate. }
        destruct D as [D|D]; [exists cur; simpl; auto|]. exists y. splits; simpl; auto; try lra.
        rewrite E in Hz. destruct Hz as [<-|Hz]; [simpl; lra|].
        rewrite E in SS. inversion SS as [|? ? ? FF]; subst. rewrite Forall_forall in FF. specialize (FF z Hz). simpl in FF. lra.
    + destruct (IH y S1) as (f & rest & E & C & SS & A1 & A2 & A3).
      exists (snd cur), (ub_loop eps y t). splits; auto.
      * destruct cur; auto.
      * apply or4_idem.
      * constructor; auto. rewrite Forall_forall. intros x Hx. destruct (A1 x Hx) as (z & Hz & <-).
        destruct Hz as [<-|Hz]; [lra|]. specialize (F2 z Hz). lra.
      * intros x [<-|Hx]; [exists cur; simpl; auto|]. destruct (A1 x Hx) as (z & Hz & Ez). exists z. simpl; auto.
      * intros x [<-|Hx]; [exists cur; splits; simpl; auto; try lra; apply or4_idem|].
        destruct (A2 x Hx) as (z & Z1 & Z2). exists z. simpl; auto.
      * intros z k [<-|Hz] Hk K; [exists cur; splits; simpl; auto; lra|].
        destruct (A3 z k Hz Hk K) as (x & X1 & X2). exists x. simpl in *; tauto.
Qed.
(** C52: break points: the positions returned are input positions more than eps apart, every input position is within
    eps to the right of a returned one, which carries its flags, and a flag of a returned one comes from an input
    within eps. *)
Lemma unique_breakpoints_exact_main :
  forall eps l, 0 <= eps -> StronglySorted (fun x y => fst x <= fst y) l ->
  let r := unique_breakpoints eps l in
  StronglySorted (fun x y => fst x + eps < fst y) r /\
  (forall x, In x r -> exists y, In y l /\ fst y = fst x) /\
  (forall x, In x l -> exists y, In y r /\ fst y <= fst x <= fst y + eps /\ or4 (snd x) (snd y) = snd y) /\
  (forall y k, In y r -> or4 k (snd y) = snd y ->
     k = (true, false, false, false) \/ k = (false, true, false, false) \/ k = (false, false, true, false) \/ k = (false, false, false, true) ->
     exists x, In x l /\ fst y <= fst x <= fst y + eps /\ or4 k (snd x) = snd x).
Proof.
  intros eps l He S r. subst r. destruct l as [|x t]; simpl.
  - splits; try tauto. constructor.
  - destruct (ub_loop_spec eps He t x S) as (f & rest & E & C & SS & A1 & A2 & A3). splits; auto.
Qed.
