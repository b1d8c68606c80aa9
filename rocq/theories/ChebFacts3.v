(** Adaptive refinement keeps the interpolation property, for each of the four families. *)
From Coq Require Import Reals Lra Lia List Bool Arith Sorted Permutation.
From Verif Require Import Base Conv Interp InterpSpec PolyFacts InterpFacts ChebFacts ChebFacts2.
Import List ListNotations.
Open Scope R_scope.

(** ** sorting pairs *)
Lemma insert_perm p l : Permutation (insert_pair p l) (p :: l).
Proof. induction l; simpl; auto. destruct (pair_le p a); auto. rewrite IHl. apply perm_swap. Qed.
Lemma sort_perm l : Permutation (sort_pairs l) l.
Proof. induction l; simpl; auto. rewrite insert_perm. constructor; auto. Qed.
Definition ple (p q : R * R) : Prop := fst p < fst q \/ (fst p = fst q /\ snd p <= snd q).
Lemma pair_le_iff p q : pair_le p q = true <-> ple p q.
Proof. unfold pair_le, ple. rewrite orb_true_iff, andb_true_iff, rlt_true, req_true, rle_true. tauto. Qed.
Lemma ple_total p q : pair_le p q = false -> ple q p.
Proof.
  intros H. unfold ple. destruct (Rtotal_order (fst p) (fst q)) as [L|[E|L]]; auto.
  - exfalso. assert (ple p q) by (left; auto). apply pair_le_iff in H0. congruence.
  - right. split; auto. destruct (Rle_dec (snd q) (snd p)); auto. exfalso. assert (K : ple p q) by (right; split; auto; lra). apply pair_le_iff in K. congruence.
Qed.
Lemma ple_trans p q r : ple p q -> ple q r -> ple p r.
Proof. unfold ple. intros. lra. Qed.
Lemma insert_sorted p l : StronglySorted ple l -> StronglySorted ple (insert_pair p l).
Proof.
  induction 1 as [|q l S IH F]; simpl; [repeat constructor|]. destruct (pair_le p q) eqn:E.
  - apply pair_le_iff in E. constructor; [constructor; auto|]. constructor; auto. rewrite Forall_forall in *. intros r Hr. eapply ple_trans; eauto.
  - apply ple_total in E. constructor; auto. rewrite Forall_forall in *. intros r Hr. apply (Permutation_in _ (insert_perm p l)) in Hr. destruct Hr as [<- |Hr]; auto.
Qed.
Lemma sort_sorted l : StronglySorted ple (sort_pairs l).
Proof. induction l; simpl; [constructor|]. apply insert_sorted; auto. Qed.
Lemma sorted_same s L : StronglySorted ple s -> StronglySorted (fun p q => fst p < fst q) L -> Permutation s L -> s = L.
Proof.
  intros S. revert L. induction S as [|y s S IH F]; intros L T P; [apply Permutation_nil in P; auto|].
  destruct L as [|x L]; [apply Permutation_sym, Permutation_nil in P; discriminate|]. inversion T; subst.
  assert (E : y = x).
  { assert (I1 : In y (x :: L)) by (apply (Permutation_in _ P); simpl; auto). assert (I2 : In x (y :: s)) by (apply (Permutation_in _ (Permutation_sym P)); simpl; auto).
    destruct I1 as [-> |I1]; auto. destruct I2 as [-> |I2]; auto. rewrite Forall_forall in *. apply H2 in I1. apply F in I2. unfold ple in I2. lra. }
  subst x. apply Permutation_cons_inv in P. f_equal. auto.
Qed.

(** ** the 3n rule *)
Lemma raw1_triple n a b k : (0 < n)%nat -> cheb1_raw n a b k = cheb1_raw (3 * n) a b (3 * k + 1).
Proof.
  intros N. unfold cheb1_raw. assert (0 < INR n) by (apply lt_0_INR; lia). do 3 f_equal. rewrite !plus_INR, !mult_INR, !plus_INR, !mult_INR. replace (INR 2) with 2 by (simpl; ring). replace (INR 3) with 3 by (simpl; ring). simpl (INR 1). field. lra.
Qed.
Lemma triple_perm n : Permutation (map (fun k => 3 * k + 1)%nat (seq 0 n) ++ filter (fun i => negb (Nat.eqb (i mod 3) 1)) (seq 0 (3 * n))) (seq 0 (3 * n)).
Proof.
  apply NoDup_Permutation.
  - assert (A : forall l1 l2 : list nat, NoDup l1 -> NoDup l2 -> (forall x, In x l1 -> ~ In x l2) -> NoDup (l1 ++ l2)).
    { clear. induction l1; simpl; intros l2 N1 N2 H; auto. inversion N1; subst. constructor; [|apply IHl1; auto]. rewrite in_app_iff. intros [K|K]; [tauto|]. apply (H a); auto. }
    apply A.
    + apply FinFun.Injective_map_NoDup; [intros i j; lia|apply seq_NoDup].
    + apply NoDup_filter, seq_NoDup.
    + intros x Hx K. apply in_map_iff in Hx as (k & <- & _). apply filter_In in K as (_ & K). rewrite Nat.add_comm, Nat.mul_comm, Nat.mod_add in K by lia. discriminate.
  - apply seq_NoDup.
  - intros x. rewrite in_app_iff, in_map_iff, filter_In, in_seq. split.
    + intros [(k & <- & K)|(K & _)]; [|auto]. apply in_seq in K. lia.
    + intros X. destruct (Nat.eqb_spec (x mod 3) 1) as [E|E]; [left|right; auto]. exists (x / 3)%nat. pose proof (Nat.div_mod x 3 ltac:(lia)). rewrite in_seq. lia.
Qed.
Lemma nodes1_increasing n a b : a < b -> StronglySorted Rlt (cheb_nodes1 n a b).
Proof.
  intros AB. apply map_sorted; [apply seq_sorted|]. intros i j I J L. apply in_seq in I, J. unfold cheb1_raw.
  pose proof (ang1 n i ltac:(lia)). pose proof (ang1 n j ltac:(lia)). pose proof (ang1_lt n i j ltac:(lia) L).
  assert (cos (INR (2 * j + 1) * PI / INR (2 * n)) < cos (INR (2 * i + 1) * PI / INR (2 * n))) by (apply cos_decreasing_1; lra). nra.
Qed.
Lemma combine_map {A} (f g : A -> R) l : combine (map f l) (map g l) = map (fun x => (f x, g x)) l.
Proof. induction l; simpl; auto. f_equal; auto. Qed.
Lemma nest1 n a b f : (0 < n)%nat -> a < b ->
  combine_sorted (cheb_nodes1 n a b) (map f (cheb_nodes1 n a b)) (incremental_cheb_nodes1 (3 * n) a b) (map f (incremental_cheb_nodes1 (3 * n) a b)) =
  Ok (cheb_nodes1 (3 * n) a b, map f (cheb_nodes1 (3 * n) a b)).
Proof.
  intros N AB. unfold combine_sorted.
  set (g := fun k => (cheb1_raw (3 * n) a b k, f (cheb1_raw (3 * n) a b k))).
  assert (E : sort_pairs (combine (cheb_nodes1 n a b ++ incremental_cheb_nodes1 (3 * n) a b) (map f (cheb_nodes1 n a b) ++ map f (incremental_cheb_nodes1 (3 * n) a b))) = map g (seq 0 (3 * n))).
  { apply sorted_same; [apply sort_sorted| |].
    - assert (G : forall l, StronglySorted Nat.lt l -> (forall i, In i l -> (i < 3 * n)%nat) -> StronglySorted (fun p q : R * R => fst p < fst q) (map g l)).
      { induction 1 as [|i l S IH F]; intros B; simpl; constructor; [apply IH; intros; apply B; simpl; auto|]. rewrite Forall_forall in *. intros p Hp. apply in_map_iff in Hp as (j & <- & J). change (cheb1_raw (3 * n) a b i < cheb1_raw (3 * n) a b j).
        pose proof (B i (or_introl eq_refl)). pose proof (B j (or_intror J)). pose proof (F j J) as L. unfold Nat.lt in L. unfold cheb1_raw.
        pose proof (ang1 (3 * n) i ltac:(lia)). pose proof (ang1 (3 * n) j ltac:(lia)). pose proof (ang1_lt (3 * n) i j ltac:(lia) L).
        assert (cos (INR (2 * j + 1) * PI / INR (2 * (3 * n))) < cos (INR (2 * i + 1) * PI / INR (2 * (3 * n)))) by (apply cos_decreasing_1; lra). nra. }
      apply G; [apply seq_sorted|]. intros i Hi. apply in_seq in Hi. lia.
    - rewrite sort_perm, <- map_app, <- (map_id (cheb_nodes1 n a b ++ _)) at 1. rewrite (combine_map (fun x => x) f).
      unfold cheb_nodes1, incremental_cheb_nodes1. rewrite (map_ext _ _ (fun k => raw1_triple n a b k N)). rewrite <- (map_map (fun k => (3 * k + 1)%nat) (cheb1_raw (3 * n) a b)), <- map_app, map_map.
      apply Permutation_map, triple_perm. }
  rewrite E. rewrite !map_map. unfold cheb_nodes1. rewrite map_map. reflexivity.
Qed.

(** ** the families *)
(** what the refinement loop needs to know about a family *)
Record good_fam (fam : family) (n0 : nat) (nodes : nat -> list R) : Prop := {
  gf_start : get_nodes fam n0 = Ok (nodes n0);
  gf_nodup : forall n, (n0 <= n)%nat -> NoDup (nodes n);
  gf_ne : forall n, (n0 <= n)%nat -> nodes n <> [];
  gf_weights : forall n, (n0 <= n)%nat -> prop_weights (nodes n) (get_weights fam (length (nodes n)));
  gf_inc : forall n, (n0 <= n)%nat -> get_inc fam (grow fam n) <> [];
  gf_grow : forall n, (n0 <= n)%nat -> (n < grow fam n)%nat;
  gf_add : forall f n, (n0 <= n)%nat ->
    add_nodes fam (nodes n) (map f (nodes n)) (get_inc fam (grow fam n)) (map f (get_inc fam (grow fam n))) = Ok (nodes (grow fam n), map f (nodes (grow fam n))) }.

Lemma combine_fast_ok oX nX f l : (length oX = length nX \/ length oX = length nX + 1)%nat -> interleave oX nX = l ->
  combine_fast oX (map f oX) nX (map f nX) = Ok (l, map f l).
Proof.
  intros H E. unfold combine_fast. rewrite !map_length, !Nat.eqb_refl, !andb_true_r. replace (Nat.eqb (length oX) (length nX) || Nat.eqb (length oX) (length nX + 1)) with true.
  - rewrite <- interleave_map, E. auto.
  - symmetry. apply orb_true_iff. rewrite !Nat.eqb_eq. auto.
Qed.
Lemma not_nil_len {A} (l : list A) : (0 < length l)%nat -> l <> [].
Proof. destruct l; simpl; [lia|discriminate]. Qed.
Lemma tl_length {A} (l : list A) : length (tl l) = (length l - 1)%nat.
Proof. destruct l; simpl; lia. Qed.
Lemma rl_length {A} (l : list A) : length (removelast l) = (length l - 1)%nat.
Proof.
  destruct l as [|x l]; auto. assert (NE : x :: l <> []) by discriminate. pose proof (app_removelast_last x NE) as E. apply (f_equal (@length A)) in E. rewrite app_length in E. cbn [length] in *. lia.
Qed.
Lemma fam_cheb_good a b : a < b -> good_fam (fam_cheb a b) 3 (fun n => nodes2 n a b).
Proof.
  intros AB. constructor; cbn [fam_cheb get_nodes get_inc grow add_nodes get_weights].
  - apply cheb_nodes_eq. lia.
  - intros n N. apply nodes2_nodup; auto. lia.
  - intros n N. apply not_nil_len. rewrite nodes2_length. lia.
  - intros n N. rewrite nodes2_length. apply nodes2_weights; auto. lia.
  - intros n N. apply not_nil_len. rewrite inc_length; lia.
  - intros n N. lia.
  - intros f n N. apply combine_fast_ok; [rewrite nodes2_length, inc_length; lia|apply nest2; lia].
Qed.
Lemma nodes2_tl n a b : (2 <= n)%nat -> tl (nodes2 n a b) = map (fun c => (1/2) * (a + b) - (1/2) * (b - a) * c) (map (fun k => cos (INR k * PI / INR (n - 1))) (seq 1 (n - 1))).
Proof. intros N. rewrite nodes2_std by auto. rewrite std2_cons. reflexivity. Qed.
Lemma nodes2_rl n a b : (2 <= n)%nat -> removelast (nodes2 n a b) = map (fun c => (1/2) * (a + b) - (1/2) * (b - a) * c) (map (fun k => cos (INR k * PI / INR (n - 1))) (seq 0 (n - 1))).
Proof. intros N. rewrite nodes2_std by auto. rewrite std2_snoc, map_app. apply removelast_snoc. Qed.
Lemma fam_nol_good a b : a < b -> good_fam (fam_nol a b) 3 (fun n => tl (nodes2 n a b)).
Proof.
  intros AB. constructor; cbn [fam_nol get_nodes get_inc grow add_nodes get_weights].
  - rewrite cheb_nodes_eq by lia. auto.
  - intros n N. assert (H := nodes2_nodup n a b ltac:(lia) AB). destruct (nodes2 n a b); auto. inversion H; auto.
  - intros n N. apply not_nil_len. rewrite tl_length, nodes2_length. lia.
  - intros n N. rewrite tl_length, nodes2_length, nodes2_tl by lia. apply prop_affine; [lra|]. apply std_nol. lia.
  - intros n N. apply not_nil_len. rewrite inc_length; lia.
  - intros n N. lia.
  - intros f n N. apply combine_fast_ok; [rewrite tl_length, nodes2_length, inc_length; lia|apply nest2_l; lia].
Qed.
Lemma fam_nor_good a b : a < b -> good_fam (fam_nor a b) 3 (fun n => removelast (nodes2 n a b)).
Proof.
  intros AB. constructor; cbn [fam_nor get_nodes get_inc grow add_nodes get_weights].
  - rewrite cheb_nodes_eq by lia. auto.
  - intros n N. assert (H := nodes2_nodup n a b ltac:(lia) AB). rewrite nodes2_snoc in * by lia. rewrite removelast_snoc. apply NoDup_remove_1 in H. rewrite app_nil_r in H. auto.
  - intros n N. apply not_nil_len. rewrite rl_length, nodes2_length. lia.
  - intros n N. rewrite rl_length, nodes2_length, nodes2_rl by lia. apply prop_affine; [lra|]. apply std_nor. lia.
  - intros n N. apply not_nil_len. rewrite inc_length; lia.
  - intros n N. lia.
  - intros f n N. apply combine_fast_ok; [rewrite rl_length, nodes2_length, inc_length; lia|apply nest2_r; lia].
Qed.
Lemma nodes1_std n a b : cheb_nodes1 n a b = map (fun c => (1/2) * (a + b) - (1/2) * (b - a) * c) (std1 n).
Proof. unfold cheb_nodes1, std1. rewrite map_map. reflexivity. Qed.
Lemma fam_cheb1_good a b : a < b -> good_fam (fam_cheb1 a b) 2 (fun n => cheb_nodes1 n a b).
Proof.
  intros AB. assert (LE : forall n, length (cheb_nodes1 n a b) = n) by (intros n; unfold cheb_nodes1; rewrite map_length, seq_length; auto).
  constructor; cbn [fam_cheb1 get_nodes get_inc grow add_nodes get_weights].
  - auto.
  - intros n N. apply (sorted_nodup Rlt); [intros; lra|]. apply nodes1_increasing; auto.
  - intros n N. apply not_nil_len. rewrite LE. lia.
  - intros n N. rewrite LE, nodes1_std. apply prop_affine; [lra|]. apply std1_weights. lia.
  - intros n N. unfold incremental_cheb_nodes1. destruct n as [|n]; [lia|]. replace (3 * S n)%nat with (S (3 * n + 2)) by lia. simpl. discriminate.
  - intros n N. lia.
  - intros f n N. apply nest1; auto. lia.
Qed.

(** ** the loop *)
Lemma map_res_ok {A B} (f : A -> res B) (g : A -> B) l : (forall x, In x l -> f x = Ok (g x)) -> map_res f l = Ok (map g l).
Proof. induction l; simpl; intros H; auto. rewrite H by auto. simpl. rewrite IHl by auto. auto. Qed.
Lemma max_abs_ok l : l <> [] -> exists m, max_abs l = Ok m /\ (forall y, In y l -> Rabs y <= m) /\ exists y, In y l /\ m = Rabs y.
Proof.
  destruct l as [|x l]; [tauto|]. intros _. simpl. eexists. split; [reflexivity|].
  assert (G : forall l s, (s <= fold_left (fun m y => Rmax m (Rabs y)) l s /\ forall y, In y l -> Rabs y <= fold_left (fun m y => Rmax m (Rabs y)) l s) /\
     (fold_left (fun m y => Rmax m (Rabs y)) l s = s \/ exists y, In y l /\ fold_left (fun m y => Rmax m (Rabs y)) l s = Rabs y)).
  { clear. induction l as [|y l IH]; intros s; simpl; [splits; auto; [lra|tauto]|]. destruct (IH (Rmax s (Rabs y))) as ((H1 & H2) & H3).
    pose proof (Rmax_l s (Rabs y)). pose proof (Rmax_r s (Rabs y)). splits; [lra|intros z [<- |Z]; auto; lra|].
    destruct H3 as [-> |(z & Z & E)]; [|right; exists z; auto]. unfold Rmax. destruct (Rle_dec s (Rabs y)); [right; exists y; auto|auto]. }
  destruct (G l (Rabs x)) as ((H1 & H2) & H3). split.
  - intros y [<- |Y]; auto.
  - destruct H3 as [E|(y & Y & E)]; [exists x|exists y]; auto.
Qed.
Lemma mon_test_fine {E} p (m : mon E) t : (last_good m <= length (hist m))%nat -> exists m' r, mon_test p (mon_add m t) = (m', Ok r) /\ (last_good m' <= length (hist m'))%nat.
Proof.
  intros H. unfold mon_test, mon_add. cbn [hist converged no_impr last_good]. rewrite app_length. cbn [length].
  replace (length (hist m) + 1 - 1)%nat with (length (hist m)) by lia. rewrite nth_error_app2 by lia. rewrite Nat.sub_diag. simpl nth_error. cbv iota beta.
  match goal with |- context [tol_met ?a ?b ?c] => destruct (tol_met a b c) end; [do 2 eexists; split; [reflexivity|]; cbn [hist last_good]; rewrite app_length; simpl; lia|].
  destruct (nth_error (hist m ++ [t]) (last_good m)) eqn:EN; [|apply nth_error_None in EN; rewrite app_length in EN; simpl in EN; lia].
  do 2 eexists; split; [reflexivity|]. destruct (rlt _ _); cbn [hist last_good]; rewrite app_length; simpl; lia.
Qed.
(** the reported error: the largest deviation of the polynomial of some stage at the next stage's new nodes *)
Definition err_of (fam : family) (f : R -> R) (nodes : nat -> list R) (n : nat) (e : R) : Prop :=
  (forall x, In x (get_inc fam (grow fam n)) -> Rabs (lag (nodes n) (map f (nodes n)) x - f x) <= e) /\
  exists x, In x (get_inc fam (grow fam n)) /\ e = Rabs (lag (nodes n) (map f (nodes n)) x - f x).
Lemma test_acc_ok fam n0 nodes f n : good_fam fam n0 nodes -> (n0 <= n)%nat ->
  exists e, test_accuracy (nodes n) (map f (nodes n)) (get_weights fam (length (nodes n))) (get_inc fam (grow fam n)) (map f (get_inc fam (grow fam n))) = Ok e /\ err_of fam f nodes n e.
Proof.
  intros G N. unfold test_accuracy. rewrite (map_res_ok _ (lag (nodes n) (map f (nodes n)))).
  2:{ intros x _. apply bary_is_lag; [apply (gf_nodup _ _ _ G)|apply (gf_ne _ _ _ G)|apply map_length|apply (gf_weights _ _ _ G)]; auto. }
  cbn [rbind]. rewrite combine_map, map_map. cbn [fst snd].
  destruct (max_abs_ok (map (fun x => lag (nodes n) (map f (nodes n)) x - f x) (get_inc fam (grow fam n)))) as (e & E & B & y & Y & EY).
  - pose proof (gf_inc _ _ _ G n N). destruct (get_inc fam (grow fam n)); [tauto|discriminate].
  - exists e. split; auto. split.
    + intros x Hx. apply B. apply in_map_iff. exists x. auto.
    + apply in_map_iff in Y as (x & <- & X). exists x. auto.
Qed.
Lemma adapt_ok fam n0 nodes f p maxn : good_fam fam n0 nodes -> forall fuel n err m, (n0 <= n)%nat -> (maxn < n + fuel)%nat ->
  (last_good m <= length (hist m))%nat -> (forall e, err = Some e -> exists n', (n0 <= n')%nat /\ grow fam n' = n /\ err_of fam f nodes n' e) -> ((n <= maxn)%nat \/ exists e, err = Some e) ->
  exists k e, let nn := Nat.iter k (grow fam) n in
    adapt fam f p maxn fuel n (nodes n) (map f (nodes n)) err m = Ok (nn, nodes nn, map f (nodes nn), e) /\ (n0 <= nn)%nat /\
    (forall j, (j < k)%nat -> (Nat.iter j (grow fam) n <= maxn)%nat) /\ (err_of fam f nodes nn e \/ (maxn < nn)%nat /\ exists n', (n0 <= n')%nat /\ grow fam n' = nn /\ err_of fam f nodes n' e).
Proof.
  intros G. induction fuel; intros n err m N FU LG HE ST.
  - cbn [adapt]. destruct (Nat.leb_spec n maxn); [lia|]. destruct ST as [?|(e & ->)]; [lia|]. exists 0%nat, e. cbn [Nat.iter nat_rect]. splits; auto; try (intros; lia); right; split; auto.
  - cbn [adapt]. destruct (Nat.leb_spec n maxn).
    2:{ destruct ST as [?|(e & ->)]; [lia|]. exists 0%nat, e. cbn [Nat.iter nat_rect]. splits; auto; try (intros; lia); right; split; auto. }
    destruct (test_acc_ok fam n0 nodes f n G N) as (e & -> & EE). cbn [rbind].
    destruct (max_abs_ok (map f (get_inc fam (grow fam n)))) as (m1 & -> & _); [pose proof (gf_inc _ _ _ G n N); destruct (get_inc fam (grow fam n)); [tauto|discriminate]|].
    destruct (max_abs_ok (map f (nodes n))) as (m2 & -> & _); [pose proof (gf_ne _ _ _ G n N); destruct (nodes n); [tauto|discriminate]|]. cbn [rbind].
    destruct (mon_test_fine p m (e, Rmax m1 m2, tt) LG) as (m' & r & -> & LG').
    assert (STOP : exists k e0, let nn := Nat.iter k (grow fam) n in Ok (n, nodes n, map f (nodes n), e) = Ok (nn, nodes nn, map f (nodes nn), e0) /\ (n0 <= nn)%nat /\
      (forall j, (j < k)%nat -> (Nat.iter j (grow fam) n <= maxn)%nat) /\ (err_of fam f nodes nn e0 \/ (maxn < nn)%nat /\ exists n', (n0 <= n')%nat /\ grow fam n' = nn /\ err_of fam f nodes n' e0)).
    { exists 0%nat, e. cbn [Nat.iter nat_rect]. splits; auto. intros; lia. }
    destruct r; auto. rewrite (gf_add _ _ _ G f n N). cbn [rbind fst snd].
    pose proof (gf_grow _ _ _ G n N). destruct (IHfuel (grow fam n) (Some e) m') as (k & e' & H1 & H2 & H3 & H4); auto; try lia.
    + intros e0 E. injection E as <-. exists n. auto.
    + eauto.
    + assert (SH : forall j, Nat.iter j (grow fam) (grow fam n) = Nat.iter (S j) (grow fam) n).
      { clear. induction j; auto. change (grow fam (Nat.iter j (grow fam) (grow fam n)) = grow fam (Nat.iter (S j) (grow fam) n)). rewrite IHj. auto. }
      exists (S k), e'. cbv zeta in *. rewrite SH in *. splits; auto. intros [|j] J; [simpl; auto|]. rewrite <- SH. apply H3. lia.
Qed.
Lemma adaptive_ok fam n0 nodes f p maxn : good_fam fam n0 nodes -> (n0 <= maxn)%nat ->
  exists k e, let n := Nat.iter k (grow fam) n0 in
    adaptive fam f p maxn n0 = Ok (n, nodes n, map f (nodes n), e) /\ (n0 <= n)%nat /\
    (forall j, (j < k)%nat -> (Nat.iter j (grow fam) n0 <= maxn)%nat) /\
    (err_of fam f nodes n e \/ (maxn < n)%nat /\ exists n', (n0 <= n')%nat /\ grow fam n' = n /\ err_of fam f nodes n' e) /\
    forall x, adaptive_fun fam (n, nodes n, map f (nodes n), e) x = Ok (lag (nodes n) (map f (nodes n)) x).
Proof.
  intros G M. unfold adaptive. rewrite (gf_start _ _ _ G). cbn [rbind].
  destruct (adapt_ok fam n0 nodes f p maxn G (S maxn) n0 None mon_init) as (k & e & H1 & H2 & H3 & H4); auto; try lia.
  - discriminate.
  - exists k, e. cbv zeta in *. splits; auto. intros x. unfold adaptive_fun.
    apply bary_is_lag; [apply (gf_nodup _ _ _ G)|apply (gf_ne _ _ _ G)|apply map_length|apply (gf_weights _ _ _ G)]; auto.
Qed.
