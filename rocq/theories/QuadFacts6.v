(** Facts: the adaptive loops. *)
From Coq Require Import Reals Lra Lia List Bool Arith.
From Coquelicot Require Import Coquelicot.
From Verif Require Import Base Conv ConvSpec ConvMain InterpSpec Interp InterpFacts ChebFacts ChebFacts2 Grid Quad QuadFacts QuadFacts2 QuadFacts3 QuadFacts4 QuadFacts5.
Import List ListNotations.
Open Scope R_scope.

Lemma inner_nest n a b : (3 <= n)%nat -> interleave (incremental_cheb_nodes (2 * n - 1) a b) (inner n a b) = inner (2 * n - 1) a b.
Proof.
  intros H. rewrite inc_eq by lia. unfold inner.
  rewrite (map_ext (fun i => cheb_raw n a b (S i)) (fun i => cheb_raw (2 * n - 1) a b (S (2 * i + 1)))).
  2:{ intros i. rewrite raw_double by lia. f_equal. lia. }
  pose proof (@interleave_seq (fun k => cheb_raw (2 * n - 1) a b (S k)) (n - 2) 0) as I0. replace (S (n - 2)) with (n - 1)%nat in I0 by lia.
  rewrite (map_ext (fun i => cheb_raw (2 * n - 1) a b (2 * i + 1)) (fun i => cheb_raw (2 * n - 1) a b (S (2 * i)))) by (intros i; f_equal; lia).
  rewrite I0. f_equal. f_equal. lia.
Qed.
Lemma inner_length n a b : length (inner n a b) = (n - 2)%nat.
Proof. unfold inner. rewrite map_length, seq_length. reflexivity. Qed.
Lemma inner_step n a b f : (3 <= n)%nat ->
  combine_fast (incremental_cheb_nodes (2 * n - 1) a b) (map f (incremental_cheb_nodes (2 * n - 1) a b)) (inner n a b) (map f (inner n a b)) =
  Ok (inner (2 * n - 1) a b, map f (inner (2 * n - 1) a b)).
Proof.
  intros H. unfold combine_fast. rewrite !map_length, inc_length, inner_length by lia. rewrite !Nat.eqb_refl.
  replace (Nat.eqb (n - 1) (n - 2 + 1)) with true by (symmetry; apply Nat.eqb_eq; lia). rewrite orb_true_r. cbn [andb].
  rewrite <- interleave_map, inner_nest by auto. reflexivity.
Qed.
Lemma nodes_step n a b f : (2 <= n)%nat ->
  combine_fast (nodes2 n a b) (map f (nodes2 n a b)) (incremental_cheb_nodes (2 * n - 1) a b) (map f (incremental_cheb_nodes (2 * n - 1) a b)) =
  Ok (nodes2 (2 * n - 1) a b, map f (nodes2 (2 * n - 1) a b)).
Proof.
  intros H. unfold combine_fast. rewrite !map_length, inc_length, nodes2_length by lia. rewrite !Nat.eqb_refl.
  replace (Nat.eqb n (n - 1 + 1)) with true by (symmetry; apply Nat.eqb_eq; lia). rewrite orb_true_r. cbn [andb].
  rewrite <- interleave_map, nest2 by auto. reflexivity.
Qed.

(** the numbers of nodes used, and the attempts *)
Definition level (n0 i : nat) : nat := ((n0 - 1) * 2 ^ i + 1)%nat.
Lemma level_S n0 i : (2 * level n0 i - 1 = level n0 (S i))%nat.
Proof. unfold level. rewrite Nat.pow_succ_r'. replace ((n0 - 1) * (2 * 2 ^ i))%nat with (2 * ((n0 - 1) * 2 ^ i))%nat by ring. generalize ((n0 - 1) * 2 ^ i)%nat. intros; lia. Qed.
Lemma level_0 n0 : (1 <= n0)%nat -> level n0 0 = n0.
Proof. intros. unfold level. simpl. lia. Qed.
Lemma pow2_pos i : (1 <= 2 ^ i)%nat.
Proof. induction i; simpl; lia. Qed.
Lemma level_ge n0 i : (1 <= n0)%nat -> (n0 <= level n0 i)%nat.
Proof. intros H. unfold level. pose proof (pow2_pos i). nia. Qed.
Lemma level_odd n0 i : (3 <= n0)%nat -> Nat.Odd n0 -> (level n0 i mod 2 = 1)%nat.
Proof.
  intros H [q Q]. unfold level. replace ((n0 - 1) * 2 ^ i + 1)%nat with (1 + (q * 2 ^ i) * 2)%nat by (rewrite Q; lia). rewrite Nat.mod_add by lia. reflexivity.
Qed.
Definition attempt (I : nat -> R) (i : nat) : R * R * unit := (Rabs (I (S i) - I i), I (S i), tt).
(** how many attempts fit below maxn *)
Fixpoint rounds (n0 maxn fuel i : nat) : nat :=
  match fuel with O => O | S fu => if Nat.leb (level n0 (S i)) maxn then S (rounds n0 maxn fu (S i)) else O end.
Definition fe_seq (f : R -> R) (a b : R) (i : nat) : R := fe_rule (level 65 i) a b f.

Lemma fe_loop f a b p maxn fuel : forall i m, (maxn < level 65 (S i) + fuel)%nat ->
  fejer2_loop f a b p maxn fuel (level 65 (S i)) (Some (inner (level 65 i) a b, map f (inner (level 65 i) a b))) (Some (fe_seq f a b i)) m =
  rmap fst (mon_run p (attempt (fe_seq f a b)) i (rounds 65 maxn fuel i) m).
Proof.
  induction fuel; intros i m F.
  - cbn [fejer2_loop rounds]. destruct (Nat.leb_spec (level 65 (S i)) maxn); [lia|]. reflexivity.
  - cbn [fejer2_loop rounds]. destruct (Nat.leb_spec (level 65 (S i)) maxn) as [L|L]; [|reflexivity].
    assert (G : (65 <= level 65 i)%nat) by (apply level_ge; lia). assert (G1 : (65 <= level 65 (S i))%nat) by (apply level_ge; lia).
    rewrite fejer2_fun by lia. unfold rbind at 1. rewrite <- (level_S 65 i), inner_step by lia. unfold rbind at 1. rewrite (level_S 65 i). cbn [snd].
    rewrite (quad_fe (level 65 (S i)) a b f _ ltac:(lia) (fejer2_fun (level 65 (S i)) ltac:(lia))). unfold rbind at 1. fold (fe_seq f a b (S i)).
    cbn [mon_run]. change (Rabs (fe_seq f a b (S i) - fe_seq f a b i), fe_seq f a b (S i), tt) with (attempt (fe_seq f a b) i).
    destruct (mon_test p (mon_add m (attempt (fe_seq f a b) i))) as [m' [[| |]|e]]; try reflexivity.
    rewrite level_S. apply IHfuel. pose proof (level_ge 65 (S i) ltac:(lia)). rewrite <- (level_S 65 (S i)). lia.
Qed.
Lemma fejer2_refines f a b p big decr maxn : (65 <= maxn)%nat ->
  integrate_fejer2 f a b p big decr maxn = rmap (fun t => (e_y t, e_ae t)) (mon_result big decr p (attempt (fe_seq f a b)) (rounds 65 maxn maxn 0)).
Proof.
  intros H. unfold integrate_fejer2, mon_result. cbn [fejer2_loop]. destruct (Nat.leb_spec 65 maxn); [|lia].
  rewrite fejer2_fun by lia. unfold rbind at 2. rewrite cheb_nodes_eq by lia. unfold rmap at 1, rbind at 2. rewrite inner_eq by lia. cbn [snd].
  rewrite (quad_fe 65 a b f _ ltac:(lia) (fejer2_fun 65 ltac:(lia))). unfold rbind at 2.
  pose proof (fe_loop f a b p maxn maxn 0 mon_init) as FL. rewrite (level_0 65) in FL by lia. unfold fe_seq at 1 in FL. rewrite (level_0 65) in FL by lia.
  change (level 65 1) with (2 * 65 - 1)%nat in FL. rewrite FL by lia. destruct (mon_run p _ 0 _ mon_init) as [[m r]|e]; reflexivity.
Qed.
Lemma rounds_pos maxn : (129 <= maxn)%nat -> (1 <= rounds 65 maxn maxn 0)%nat.
Proof. intros H. destruct maxn; [lia|]. cbn [rounds]. change (level 65 1) with 129%nat. destruct (Nat.leb_spec 129 (S maxn)); lia. Qed.
Lemma rounds_level n0 maxn : forall fuel i k, (k < rounds n0 maxn fuel i)%nat -> (level n0 (S (i + k)) <= maxn)%nat.
Proof.
  induction fuel; intros i k K; [simpl in K; lia|]. cbn [rounds] in K. destruct (Nat.leb_spec (level n0 (S i)) maxn) as [L|L]; [|lia].
  destruct k; [rewrite Nat.add_0_r; auto|]. replace (i + S k)%nat with (S i + k)%nat by lia. apply IHfuel. lia.
Qed.
Lemma fejer2_result f a b p big decr maxn : 0 <= ratio p <= 1 -> 0 <= big -> 0 <= decr <= 1 -> (129 <= maxn)%nat ->
  exists k, (level 65 (S k) <= maxn)%nat /\ integrate_fejer2 f a b p big decr maxn = Ok (fe_seq f a b (S k), Rabs (fe_seq f a b (S k) - fe_seq f a b k)).
Proof.
  intros Ra Bi De H. rewrite fejer2_refines by lia.
  destruct (monitor_result_main unit big decr p (attempt (fe_seq f a b)) (rounds 65 maxn maxn 0) Ra) as (k & n & Hr & Kn & _); auto.
  - intros i. unfold attempt, e_ae. simpl. apply Rabs_pos.
  - apply rounds_pos. auto.
  - exists k. split; [apply (rounds_level 65 maxn maxn 0 k); lia|]. rewrite Hr. reflexivity.
Qed.
Lemma level_len i (cs : list R) : (length cs <= 64 * 2 ^ i)%nat -> (length cs <= level 65 i - 2 + level 65 i mod 2)%nat.
Proof. intros H. rewrite level_odd by (try lia; exists 32%nat; lia). pose proof (pow2_pos i). unfold level. lia. Qed.
Lemma len_up k (cs : list R) : (length cs <= 64)%nat -> (length cs <= 64 * 2 ^ k)%nat.
Proof. intros H. pose proof (pow2_pos k). nia. Qed.
Lemma len_up2 k (cs : list R) : (length cs <= 128)%nat -> (length cs <= 64 * 2 ^ S k)%nat.
Proof. intros H. pose proof (pow2_pos k). rewrite Nat.pow_succ_r'. nia. Qed.
Lemma fe_seq_exact a b cs i : (length cs <= 64 * 2 ^ i)%nat -> fe_seq (poly cs) a b i = RInt (poly cs) a b.
Proof. intros H. apply fe_exact; [pose proof (level_ge 65 i); lia|]. apply level_len. auto. Qed.
Lemma fe_seq_bound a b f cs d i : a <= b -> (length cs <= 64 * 2 ^ i)%nat -> ex_RInt f a b -> (forall t, a <= t <= b -> Rabs (f t - poly cs t) <= d) ->
  Rabs (fe_seq f a b i - RInt f a b) <= 2 * (b - a) * d.
Proof. intros AB H E D. apply (fe_bound _ a b f cs d); auto; [pose proof (level_ge 65 i); lia|]. apply level_len. auto. Qed.
Lemma fe_rule_range n a b f lo hi : (3 <= n)%nat -> a <= b -> (forall t, a <= t <= b -> lo <= f t <= hi) -> lo * (b - a) <= fe_rule n a b f <= hi * (b - a).
Proof.
  intros H AB HF. unfold fe_rule. pose proof (fe_sum (n - 1) ltac:(lia)) as S2. replace (S (n - 1)) with n in S2 by lia.
  assert (L : bsum n (fun j => fe_w (n - 1) j * lo) <= bsum n (fun j => fe_w (n - 1) j * f (cheb_raw n a b j))).
  { apply bsum_le. intros j J. apply Rmult_le_compat_l; [apply fe_nonneg; lia|]. apply HF. apply raw_in. auto. }
  assert (U : bsum n (fun j => fe_w (n - 1) j * f (cheb_raw n a b j)) <= bsum n (fun j => fe_w (n - 1) j * hi)).
  { apply bsum_le. intros j J. apply Rmult_le_compat_l; [apply fe_nonneg; lia|]. apply HF. apply raw_in. auto. }
  rewrite bsum_scal_r, S2 in L, U. set (Z := bsum n _) in *. nra.
Qed.
Lemma fejer2_small f a b p big decr maxn : (maxn < 129)%nat -> integrate_fejer2 f a b p big decr maxn = Err EIndex.
Proof.
  intros H. destruct (Nat.le_gt_cases 65 maxn) as [G|G].
  - rewrite fejer2_refines by auto. unfold mon_result. destruct maxn; [lia|]. cbn [rounds]. change (level 65 1) with 129%nat. destruct (Nat.leb_spec 129 (S maxn)); [lia|]. reflexivity.
  - unfold integrate_fejer2. cbn [fejer2_loop]. destruct (Nat.leb_spec 65 maxn); [lia|]. reflexivity.
Qed.

(** ** Clenshaw-Curtis *)
Lemma clen_first f a b p maxn fuel : (3 <= maxn)%nat ->
  clenshaw_loop f a b p maxn (S fuel) 3 None None None mon_init =
  clenshaw_loop f a b p maxn fuel 5 (Some (nodes2 3 a b, map f (nodes2 3 a b))) (Some (cc_rule 3 a b f)) None mon_init.
Proof.
  intros H. cbn [clenshaw_loop]. destruct (Nat.leb_spec 3 maxn); [|lia]. rewrite clenshaw_fun by lia. unfold rbind at 1. rewrite cheb_nodes_eq by lia.
  unfold rmap at 1. unfold rbind at 1. cbn [snd]. rewrite (quad_cc 3 a b f _ _ ltac:(lia) (clenshaw_fun 3 ltac:(lia)) (cheb_nodes_eq 3 a b ltac:(lia))). unfold rbind at 1. reflexivity.
Qed.
Lemma clen_second f a b p maxn fuel : (5 <= maxn < 9)%nat -> (1 <= fuel)%nat ->
  clenshaw_loop f a b p maxn (S fuel) 5 (Some (nodes2 3 a b, map f (nodes2 3 a b))) (Some (cc_rule 3 a b f)) None mon_init =
  let e := Rabs (cc_rule 5 a b f - cc_rule 3 a b f) in
  match mon_test p (mon_add mon_init (e, cc_rule 5 a b f, tt)) with
  | (_, Err er) => Err er
  | (_, Ok Continue) => Ok (9%nat, Some (cc_rule 5 a b f), Some e)
  | (_, Ok _) => Ok (5%nat, Some (cc_rule 5 a b f), Some e)
  end.
Proof.
  intros H F. cbn [clenshaw_loop]. destruct (Nat.leb_spec 5 maxn); [|lia]. rewrite clenshaw_fun by lia. unfold rbind at 1.
  pose proof (nodes_step 3 a b f ltac:(lia)) as NS. change (2 * 3 - 1)%nat with 5%nat in NS. rewrite NS. unfold rbind at 1. cbn [snd].
  rewrite (quad_cc 5 a b f _ _ ltac:(lia) (clenshaw_fun 5 ltac:(lia)) (cheb_nodes_eq 5 a b ltac:(lia))). unfold rbind at 1. cbv zeta.
  destruct (mon_test p _) as [m' [[| |]|er]]; try reflexivity. destruct fuel; [lia|]. cbn [clenshaw_loop]. change (2 * 5 - 1)%nat with 9%nat. destruct (Nat.leb_spec 9 maxn); [lia|]. reflexivity.
Qed.
