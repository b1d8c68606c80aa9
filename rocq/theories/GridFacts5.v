(** Proofs: exactness of sparse-grid interpolation and of the adaptive loop. *)
From Coq Require Import Reals Lra Lia ZArith List Bool Arith FinFun.
From Verif Require Import Base Conv Comb Interp InterpSpec PolyFacts InterpFacts ChebFacts ChebFacts2 ChebFacts3 Grid GridSpec GridFacts GridFacts2 GridFacts3 GridFacts4.
Import List ListNotations.
Open Scope R_scope.

(** ** Exactness *)
Lemma nodes_nest e p a b x : (1 <= e <= p)%nat -> In x (nodes2 (level_size e) a b) -> In x (nodes2 (level_size p) a b).
Proof.
  intros E H. apply in_map_iff in H as (k & <- & K). apply in_seq in K. rewrite <- (raw_level e p) by auto. apply in_map. apply in_seq. pose proof (level_mul e p k E). lia.
Qed.
Lemma nodes_nd e a b : a < b -> NoDup (nodes2 (level_size e) a b).
Proof. intros. apply nodes2_nodup; auto. pose proof (level_size_ge e). lia. Qed.
Lemma tlag_min e box x : on_grid e box x -> Forall (fun ab => fst ab < snd ab) box -> forall f p, length p = length box -> Forall (fun k => (1 <= k)%nat) p ->
  tlag (grids p box) f x = tlag (grids (min_list p e) box) f x.
Proof.
  induction 1 as [|e1 e ab box y ys E1 Y H IH]; intros BX f [|p1 p] LP FP; simpl in LP; try lia; auto. inversion BX; inversion FP; subst. rewrite cheb_points_nodes in Y.
  unfold grids, min_list. cbn [combine map fst snd]. fold (min_list p e) (grids p box) (grids (min_list p e) box). destruct (Nat.le_gt_cases e1 p1).
  - rewrite !tlag_node; [apply IH; auto| | | |]; try (apply nodes_nd; auto); apply (nodes_nest e1); auto; lia.
  - rewrite Nat.min_l by lia. cbn [tlag]. apply sumR_ext. intros i _. f_equal. apply IH; auto.
Qed.
Lemma tlag_on e box x : on_grid e box x -> Forall (fun ab => fst ab < snd ab) box -> forall f, tlag (grids e box) f x = f x.
Proof.
  induction 1 as [|e1 e ab box y ys E1 Y H IH]; intros BX f; auto. inversion BX; subst. rewrite cheb_points_nodes in Y. unfold grids. cbn [combine map fst snd]. rewrite tlag_node; auto; [apply IH; auto|apply nodes_nd; auto].
Qed.
Lemma level_le e p : (e <= p)%nat -> (level_size e <= level_size p)%nat.
Proof. intros. unfold level_size. assert (2 ^ (e - 1) <= 2 ^ (p - 1))%nat by (apply Nat.pow_le_mono_r; lia). lia. Qed.
Lemma tlag_min_poly e g : tensor_poly e g -> forall box x, length e = length box -> length x = length box -> Forall (fun ab => fst ab < snd ab) box -> forall p, length p = length box -> Forall (fun k => (1 <= k)%nat) p ->
  tlag (grids p box) g x = tlag (grids (min_list p e) box) g x.
Proof.
  induction 1 as [c|e1 e P g E1 HP H IH]; intros [|ab box] [|y ys] LE LX BX [|p1 p] LP FP; simpl in LE, LX, LP; try lia; auto. inversion BX; inversion FP; subst.
  unfold grids, min_list. cbn [combine map fst snd]. fold (min_list p e) (grids p box) (grids (min_list p e) box).
  assert (LM : length (min_list p e) = length box) by (unfold min_list; rewrite map_length, combine_length; lia). destruct (Nat.le_gt_cases e1 p1).
  - rewrite !tlag_poly; try (apply nodes_nd; auto); try (rewrite grids_length; auto); try (rewrite nodes2_length).
    + f_equal. apply IH; auto.
    + rewrite Nat.min_r by lia. auto.
    + eapply poly_lt_le; [|exact HP]. apply level_le. auto.
  - rewrite Nat.min_l by lia. cbn [tlag]. apply sumR_ext. intros i _. f_equal. rewrite !tlag_scal by (rewrite grids_length; auto). f_equal. apply IH; auto.
Qed.
Lemma tlag_poly_on e g : tensor_poly e g -> forall box x, length e = length box -> length x = length box -> Forall (fun ab => fst ab < snd ab) box -> tlag (grids e box) g x = g x.
Proof.
  induction 1 as [c|e1 e P g E1 HP H IH]; intros [|ab box] [|y ys] LE LX BX; simpl in LE, LX; try lia; auto. inversion BX; subst.
  unfold grids. cbn [combine map fst snd]. fold (grids e box). rewrite tlag_poly; [f_equal; apply IH; auto|apply nodes_nd; auto|rewrite nodes2_length; auto|rewrite grids_length; auto].
Qed.
Definition sparse_sum (q : nat) (box : list (R * R)) (f : list R -> R) (x : list R) : R :=
  sumR (map (fun p => sub_coeff q (length box) p * tlag (grids p box) f x) (Qset q (length box))).
Lemma on_grid_len e box x : on_grid e box x -> length e = length box /\ length x = length box /\ Forall (fun k => (1 <= k)%nat) e.
Proof. induction 1; simpl; [auto|]. destruct IHon_grid as (A & B & C). splits; auto. Qed.
Lemma tensor_pos e g : tensor_poly e g -> Forall (fun k => (1 <= k)%nat) e.
Proof. induction 1; auto. Qed.
Lemma sparse_node q box f x e : (1 <= length box)%nat -> (length box <= q)%nat -> Forall (fun ab => fst ab < snd ab) box -> on_grid e box x -> (list_sum e <= q)%nat -> sparse_sum q box f x = f x.
Proof.
  intros D Q BX G S. destruct (on_grid_len _ _ _ G) as (A & B & C). unfold sparse_sum. rewrite <- (tlag_on e box x G BX f). apply (combination q (length box) (fun p => tlag (grids p box) f x) e); auto.
  intros p P1 P2. apply tlag_min; auto.
Qed.
Lemma sparse_tensor q box x e g : (1 <= length box)%nat -> (length box <= q)%nat -> Forall (fun ab => fst ab < snd ab) box -> length x = length box -> length e = length box -> tensor_poly e g -> (list_sum e <= q)%nat -> sparse_sum q box g x = g x.
Proof.
  intros D Q BX LX LE T S. unfold sparse_sum. rewrite <- (tlag_poly_on e g T box x) by auto. apply (combination q (length box) (fun p => tlag (grids p box) g x) e); auto; [eapply tensor_pos; eauto|].
  intros p P1 P2. apply tlag_min_poly; auto.
Qed.
Lemma sparse_exact_poly q box f x : (1 <= length box)%nat -> (length box <= q)%nat -> Forall (fun ab => fst ab < snd ab) box -> length x = length box -> sparse_poly q (length box) f -> sparse_sum q box f x = f x.
Proof.
  intros D Q BX LX (terms & HT & HF). rewrite HF by auto. transitivity (sumR (map (fun g => sparse_sum q box g x) terms)).
  - unfold sparse_sum. rewrite sumR_swap. apply sumR_ext. intros p P. destruct (Q_bounds q (length box) D Q) as [_ QL]. rewrite Forall_forall in QL. rewrite sumR_scal. f_equal.
    rewrite <- tlag_lin by (rewrite grids_length; auto). apply tlag_ext; rewrite grids_length by auto; auto.
  - apply sumR_ext. intros g G. rewrite Forall_forall in HT. destruct (HT g G) as (e & E1 & E2 & E3). apply (sparse_tensor q box x e g); auto.
Qed.

(** ** The adaptive loop *)
Definition grid_inv (f : list R -> R) (box : list (R * R)) (g : sgrid) : Prop :=
  let d := length box in let M := (g_q g - d + 1)%nat in
  (d <= g_q g)%nat /\ levels_ok box (g_levels g) /\ (M + 1 < length (g_levels g))%nat /\ NoDup (g_nodes g) /\
  (forall t, In t (g_nodes g) <-> exists p, In p (Qset (g_q g) d) /\ In t (snodes M p)) /\
  map fst (g_sub g) = Qset (g_q g) d /\ Forall (sub_ok (g_q g) d M (g_nodes g)) (g_sub g) /\
  g_Ys g = map (fun t => f (coords (lvl box M) t)) (g_nodes g).
Lemma inv_value f box g x : (1 <= length box)%nat -> Forall (fun ab => fst ab < snd ab) box -> grid_inv f box g -> length x = length box -> sg_value g x = Ok (sparse_sum (g_q g) box f x).
Proof.
  intros D BX (A & B & C & _ & _ & E & F & G) LX. unfold sg_value. rewrite G. apply interp_at_ok; auto. lia.
Qed.
Lemma init_ok f box : (1 <= length box)%nat -> exists g, sg_init f box = Ok g /\ grid_inv f box g /\ g_q g = length box /\ g_ni g = level_size (length (g_levels g)).
Proof.
  intros D. unfold sg_init. replace (length box - length box + 1 + 1)%nat with 2%nat by lia. replace (length box - length box + 1)%nat with 1%nat by lia.
  assert (LO : levels_ok box [no_level]) by (split; simpl; [auto|intros; lia]).
  destruct (add_levels_ok box 2 [no_level] LO) as (lv & A & B & C). change (level_size (length [no_level])) with 11%nat in A. rewrite A. cbn [rbind fst snd]. simpl in C.
  destruct (sg_nodes_ok box lv (length box) (length box) D ltac:(lia) B ltac:(lia)) as (nodes & sub & N1 & N2 & N3 & N4 & N5). rewrite N1. cbn [rbind fst snd]. eexists. split; [reflexivity|]. splits; auto.
  unfold grid_inv. cbn [g_q g_levels g_nodes g_sub g_Ys]. replace (length box - length box + 1)%nat with 1%nat in * by lia. split; [lia|]. split; auto. splits; auto; try lia. destruct B as [_ B]. rewrite B by lia. auto.
Qed.
Lemma nodes_nonempty q d (t : list nat) : (1 <= d)%nat -> (d <= q)%nat -> exists p, In p (Qset q d) /\ In (1%nat :: repeat O (d - 1)) (snodes (q - d + 1) p).
Proof.
  intros D Q. destruct (gen_Q_ok q d D Q) as (_ & _ & H). exists ((q - d + 1)%nat :: repeat 1%nat (d - 1)). split.
  - apply H. cbn [length]. rewrite repeat_length. splits; try lia.
    + constructor; [lia|]. apply Forall_forall. intros x X. apply repeat_spec in X. lia.
    + change (list_sum ((q - d + 1)%nat :: repeat 1%nat (d - 1))) with ((q - d + 1) + list_sum (repeat 1%nat (d - 1)))%nat. assert (E : forall n, list_sum (repeat 1%nat n) = n) by (induction n; auto; unfold list_sum in *; simpl; lia). rewrite E. lia.
    + change (list_sum ((q - d + 1)%nat :: repeat 1%nat (d - 1))) with ((q - d + 1) + list_sum (repeat 1%nat (d - 1)))%nat. assert (E : forall n, list_sum (repeat 1%nat n) = n) by (induction n; auto; unfold list_sum in *; simpl; lia). rewrite E. lia.
  - apply product_In. cbn [map]. constructor.
    + apply in_map_iff. exists 1%nat. split; [rewrite Nat.sub_diag; simpl; auto|]. apply in_seq. pose proof (level_size_ge (q - d + 1)). lia.
    + generalize (d - 1)%nat. intros n. induction n; [constructor|]. cbn [repeat map]. constructor; auto. apply in_map_iff. exists 0%nat. split; auto. apply in_seq. pose proof (level_size_ge 1). lia.
Qed.
Lemma map_res_ok' {A B} (f : A -> res B) (g : A -> B) l : (forall x, In x l -> f x = Ok (g x)) -> map_res f l = Ok (map g l).
Proof. apply map_res_ok. Qed.
Lemma step_ok f box par g m : (1 <= length box)%nat -> Forall (fun ab => fst ab < snd ab) box -> grid_inv f box g -> g_ni g = level_size (length (g_levels g)) -> (last_good m <= length (hist m))%nat ->
  exists g' m' c, sg_step f box par g m = Ok (g', m', c) /\ grid_inv f box g' /\ (last_good m' <= length (hist m'))%nat /\
    (if c then g_q g' = (g_q g + 1)%nat /\ g_ni g' = level_size (length (g_levels g')) else g_q g' = g_q g).
Proof.
  intros D BX INV NI LG. pose proof INV as (A & B & C & N & NN & E & F & G). set (d := length box) in *. set (M := (g_q g - d + 1)%nat) in *.
  unfold sg_step. fold d. rewrite NI, new_level_ok. cbn [rbind]. set (levels := g_levels g ++ [lvl box (length (g_levels g))]). assert (LO : levels_ok box levels) by (apply levels_snoc; auto).
  assert (LL : length levels = S (length (g_levels g))) by (unfold levels; rewrite app_length; simpl; lia).
  assert (MQ : (g_q g + 1 - d + 1 = S M)%nat) by (unfold M; lia).
  destruct (sg_nodes_ok box levels (g_q g + 1) d D ltac:(lia) LO ltac:(lia)) as (nodes & sub & S1 & S2 & S3 & S4 & S5). rewrite S1. cbn [rbind fst snd]. rewrite MQ in *.
  assert (HL : nth (S M) levels no_level = lvl box (S M)) by (destruct LO as [_ LO]; apply LO; lia). rewrite HL.
  set (old := map (map (fun i => 2 * i)%nat) (g_nodes g)). set (inc := filter (fun t => negb (existsb (tuple_eqb t) old)) nodes).
  assert (IO : forall t, In t inc <-> In t nodes /\ ~ In t old).
  { intros t. unfold inc. rewrite filter_In. assert (existsb (tuple_eqb t) old = true <-> In t old). { rewrite existsb_exists. split; [intros (u & U & V); apply tuple_eqb_true in V; subst; auto|intros; exists t; split; auto; apply tuple_eqb_true; auto]. }
    destruct (existsb (tuple_eqb t) old); simpl; intuition discriminate. }
  assert (NL : forall q (Q : (d <= q)%nat) p t, In p (Qset q d) -> In t (snodes (q - d + 1) p) -> length t = d).
  { intros q Q p t P T. destruct (Q_bounds q d D Q) as [_ QL]. rewrite Forall_forall in QL. rewrite <- (QL p P). apply product_In in T. clear - T. revert t T. induction p; intros t T; inversion T; subst; simpl; auto. }
  assert (INE : inc <> []).
  { destruct (nodes_nonempty (g_q g + 1) d [] D ltac:(lia)) as (p & P1 & P2). rewrite MQ in P2. intros Z. assert (X : In (1%nat :: repeat O (d - 1)) inc).
    { apply IO. split; [apply S3; eauto|]. intros O. apply in_map_iff in O as (u & U & _). destruct u as [|u0 u]; [discriminate|]. injection U. intros. lia. }
    rewrite Z in X. destruct X. }
  assert (LC : forall t, In t inc -> length (coords (lvl box (S M)) t) = d).
  { intros t T. apply IO in T as [T _]. apply S3 in T as (p & P1 & P2). rewrite <- MQ in P2. apply (NL (g_q g + 1)%nat ltac:(lia)) in P2; auto. unfold coords, lvl. cbn [lv_x]. rewrite map_length, combine_length, map_length. fold d. lia. }
  rewrite (map_res_ok _ (sparse_sum (g_q g) box f)).
  2:{ intros x X. apply in_map_iff in X as (t & <- & T). rewrite G. apply interp_at_ok; auto; try (fold d; lia). }
  cbn [rbind]. destruct (max_abs_ok (map (fun p => fst p - snd p) (combine (map (sparse_sum (g_q g) box f) (map (coords (lvl box (S M))) inc)) (map f (map (coords (lvl box (S M))) inc))))) as (err & -> & _).
  { apply not_nil_len. rewrite map_length, combine_length, !map_length. destruct inc; [tauto|simpl; lia]. }
  cbn [rbind]. destruct (max_abs_ok (map f (map (coords (lvl box (S M))) inc))) as (m1 & -> & _); [apply not_nil_len; rewrite !map_length; destruct inc; [tauto|simpl; lia]|].
  destruct (max_abs_ok (g_Ys g)) as (m2 & -> & _).
  { rewrite G. apply not_nil_len. rewrite map_length. destruct (nodes_nonempty (g_q g) d [] D A) as (p & P1 & P2). fold M in P2. assert (X : In (1%nat :: repeat O (d - 1)) (g_nodes g)) by (apply NN; eauto). destruct (g_nodes g); [destruct X|simpl; lia]. }
  cbn [rbind]. destruct (mon_test_fine par m (err, Rmax m1 m2, tt) LG) as (m' & r & -> & LG').
  assert (STOP : grid_inv f box (SGrid (g_q g) (level_size (length (g_levels g))) levels (g_nodes g) (g_sub g) (g_Ys g))).
  { unfold grid_inv. cbn [g_q g_levels g_nodes g_sub g_Ys]. fold d M. split; auto. split; auto. splits; auto. lia. }
  destruct r; [do 3 eexists; split; [reflexivity|]; auto|do 3 eexists; split; [reflexivity|]; auto|].
  rewrite (map_res_ok _ (fun t => f (coords (lvl box (S M)) t))).
  - cbn [rbind]. do 3 eexists. split; [reflexivity|]. cbv iota. split; [|split; [auto|split; auto; cbn [g_ni g_levels]; rewrite LL; apply level_grow; lia]].
    unfold grid_inv. cbn [g_q g_levels g_nodes g_sub g_Ys]. fold d. rewrite MQ. split; [lia|]. split; auto. splits; auto. lia.
  - intros t T. unfold new_value. destruct (find_index t inc) as [i|] eqn:FI.
    + apply find_index_some in FI as [I1 I2]. f_equal. rewrite map_map. rewrite (nth_indep _ 0 (f (coords (lvl box (S M)) []))) by (rewrite map_length; auto). rewrite (map_nth (fun t => f (coords (lvl box (S M)) t))). rewrite I2. auto.
    + apply find_index_none in FI. assert (TO : In t old) by (destruct (in_dec (list_eq_dec Nat.eq_dec) t old); auto; exfalso; apply FI; apply IO; auto).
      destruct (find_index t old) as [i|] eqn:FO; [|apply find_index_none in FO; tauto]. apply find_index_some in FO as [I1 I2]. f_equal. unfold old in I1, I2. rewrite map_length in I1.
      rewrite (nth_indep _ [] (map (fun i => 2 * i)%nat [])) in I2 by (rewrite map_length; auto). rewrite (map_nth (map (fun i => 2 * i)%nat)) in I2. rewrite G.
      rewrite (nth_indep _ 0 (f (coords (lvl box M) []))) by (rewrite map_length; auto). rewrite (map_nth (fun t => f (coords (lvl box M) t))). rewrite <- I2. rewrite coords_double; auto; [unfold M; lia|].
      assert (X : In (nth i (g_nodes g) []) (g_nodes g)) by (apply nth_In; auto). apply NN in X as (p & P1 & P2). apply (snodes_entries M p); auto. destruct (Q_bounds (g_q g) d D A) as [QB _]. rewrite Forall_forall in QB. apply QB. auto.
Qed.
Lemma loop_ok f box par maxq : (1 <= length box)%nat -> Forall (fun ab => fst ab < snd ab) box -> forall fuel g m, grid_inv f box g -> g_ni g = level_size (length (g_levels g)) -> (last_good m <= length (hist m))%nat -> (maxq < g_q g + fuel)%nat ->
  exists g', sg_loop f box par maxq fuel g m = Ok g' /\ grid_inv f box g' /\ (g_q g <= g_q g' <= Nat.max (g_q g) (maxq + 1))%nat.
Proof.
  intros D BX. induction fuel; intros g m INV NI LG FU; cbn [sg_loop].
  - destruct (Nat.leb_spec (g_q g) maxq); [lia|]. exists g. split; auto. split; auto. lia.
  - destruct (Nat.leb_spec (g_q g) maxq); [|exists g; split; auto; split; auto; lia].
    destruct (step_ok f box par g m D BX INV NI LG) as (g1 & m1 & c & -> & I1 & L1 & K). cbn [rbind]. destruct c.
    + destruct K as [K1 K2]. destruct (IHfuel g1 m1 I1 K2 L1 ltac:(lia)) as (g' & -> & I' & Q'). exists g'. split; auto. split; auto. lia.
    + exists g1. split; auto. split; auto. lia.
Qed.
Lemma make_ok f box par maxq : (1 <= length box)%nat -> Forall (fun ab => fst ab < snd ab) box ->
  exists g, sg_make f box par maxq = Ok g /\ grid_inv f box g /\ (length box <= g_q g <= Nat.max (length box) (maxq + 1))%nat.
Proof.
  intros D BX. unfold sg_make. destruct (init_ok f box D) as (g & -> & I & Q & NI). cbn [rbind]. destruct (loop_ok f box par maxq D BX (S maxq) g mon_init I NI) as (g' & A & B & C); [simpl; auto|lia|]. exists g'. split; auto. split; auto. lia.
Qed.
