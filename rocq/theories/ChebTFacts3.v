(** Facts: derivative and trimming of interpolators at Chebyshev nodes. *)
From Coq Require Import Reals Lra Lia List Bool Arith.
From Coquelicot Require Import Coquelicot.
From Verif Require Import Base InterpSpec Interp Grid Quad ChebT PolyFacts ChebFacts2 ChebFacts3 InterpMain QuadFacts QuadFacts2 QuadFacts3 ChebTFacts ChebTFacts2.
Import List ListNotations.
Open Scope R_scope.

Lemma raw_half N a b j : cheb_raw (S N) a b j = (a + b) / 2 + (b - a) / 2 * (- cos (half N j)).
Proof. unfold cheb_raw, half. replace (S N - 1)%nat with N by lia. field. Qed.
(** values at the nodes of any polynomial are those of a series *)
Lemma nodes_series N a b P c : (forall t, P ((a + b) / 2 + (b - a) / 2 * t) = ser N c t) ->
  map P (nodes2 (S N) a b) = map (fun j => ser N c (- cos (half N j))) (seq 0 (S N)).
Proof. intros H. unfold nodes2. rewrite map_map. apply map_fun_ext. intros j _. rewrite raw_half, H. auto. Qed.
Lemma data_series N fs : (0 < N)%nat -> length fs = S N -> exists c, fs = map (fun j => ser N c (- cos (half N j))) (seq 0 (S N)).
Proof.
  intros H L. destruct (interp_exact_main (nodes2 (S N) (-1) 1) fs) as (P & (PP & Th) & _).
  - apply nodes2_nodup; [lia|lra].
  - intros E. pose proof (nodes2_length (S N) (-1) 1) as L2. rewrite E in L2. discriminate.
  - rewrite nodes2_length. auto.
  - rewrite nodes2_length in PP. destruct (poly_series N P ((-1 + 1) / 2) ((1 - -1) / 2) PP) as (c & Hc). exists c.
    rewrite <- (nodes_series N (-1) 1 P c Hc). symmetry. unfold nodes2 at 1. rewrite map_map. symmetry. apply list_fun; auto. intros i Hi.
    rewrite <- Th by (rewrite nodes2_length; auto). unfold nodes2. rewrite nth_seq_map by auto. auto.
Qed.

(** a barycentric interpolator at the Chebyshev nodes of a polynomial is that polynomial *)
Lemma cheb_bary n a b P x : (2 <= n)%nat -> a < b -> poly_lt n P -> bary_at (nodes2 n a b) (map P (nodes2 n a b)) (cheb_weights n) x = Ok (P x).
Proof.
  intros H AB PP. destruct (cheb_weights_exact_main n a b (map P (nodes2 n a b)) H AB) as (X & EX & C & _).
  rewrite cheb_nodes_eq in EX by auto. injection EX as <-. destruct C as (P0 & (PP0 & Th) & C); [rewrite map_length; apply nodes2_length|].
  rewrite C. f_equal. rewrite nodes2_length in PP0. apply (poly_unique n P0 P (nodes2 n a b)); auto; [apply nodes2_nodup; auto|apply nodes2_length|].
  intros r Hr. destruct (In_nth _ _ 0 Hr) as (i & Hi & <-). rewrite Th by auto. rewrite (nth_indep _ 0 (P 0)) by (rewrite map_length; auto). apply map_nth.
Qed.
Lemma on_cheb n a b P : (2 <= n)%nat -> a < b -> poly_lt n P ->
  exists q, on_chebspace a b (map P (nodes2 n a b)) = Ok q /\ bX q = nodes2 n a b /\ bY q = map P (nodes2 n a b) /\ forall x, bcall q x = Ok (P x).
Proof.
  intros H AB PP. unfold on_chebspace. rewrite map_length, nodes2_length, cheb_nodes_eq by auto. unfold rmap. eexists. split; [reflexivity|]. splits; auto.
  intros x. unfold bcall. cbn [bX bY bW]. apply cheb_bary; auto.
Qed.
Lemma ends_nodes n a b : (2 <= n)%nat -> ends (nodes2 n a b) = Ok (a, b).
Proof.
  intros H. unfold ends. destruct (nodes2 n a b) as [|x l] eqn:E; [pose proof (nodes2_length n a b) as L; rewrite E in L; simpl in L; lia|].
  assert (Ex : x = a). { pose proof (raw_first n a b H) as F. rewrite <- F. transitivity (nth 0 (nodes2 n a b) 0); [rewrite E; auto|]. unfold nodes2. apply nth_seq_map. lia. }
  rewrite <- E. unfold nodes2. rewrite last_fun by lia. rewrite raw_last by auto. rewrite Ex. auto.
Qed.

(** what diff2 computes for a polynomial with n coefficients from its values at n nodes *)
Definition top (N : nat) (t : R) : R := 2 * INR N * V N t - 2 * INR N * T (N - 1) t.
Lemma top_poly N : (0 < N)%nat -> poly_lt N (top N).
Proof.
  intros H. apply (poly_lt_ext N (fun t => 2 * INR N * V N t + (- (2 * INR N)) * T (N - 1) t)); [intros; unfold top; ring|].
  apply poly_lt_plus; apply poly_lt_scal; [apply V_poly|]. replace N with (S (N - 1)) at 1 by lia. apply T_poly.
Qed.
Lemma top_2 t : top 2 t = 0.
Proof. unfold top. rewrite V_SS, V_1, V_0. simpl (2 - 1)%nat. rewrite T_1. field. Qed.
Lemma top_1 N : top N 1 = INR N * (INR N - 2).
Proof. unfold top. rewrite V_at_1, T_at_1. field. Qed.
Lemma diff2_value n a b P Ws : (3 <= n)%nat -> a < b -> poly_lt n P -> exists c q,
  (forall t, P ((a + b) / 2 + (b - a) / 2 * t) = ser (n - 1) c t) /\
  diff2 (BI (nodes2 n a b) (map P (nodes2 n a b)) Ws) = Ok q /\ bX q = nodes2 (n - 1) a b /\
  forall x, bcall q x = Ok (Derive P x + c (n - 1)%nat * top (n - 1) ((x - (a + b) / 2) / ((b - a) / 2)) / ((b - a) / 2)).
Proof.
  intros H AB PP. set (N := (n - 1)%nat). assert (En : n = S N) by (unfold N; lia). rewrite En in PP. set (m := (a + b) / 2). set (h := (b - a) / 2). assert (Hh : 0 < h) by (unfold h; lra).
  destruct (poly_series N P m h PP) as (c & Hc). exists c.
  set (c2 := fun k => if Nat.eqb k N then 2 * c N else c k).
  destruct (cheb_diff_fun N c2 ltac:(lia)) as (d & D1 & D2 & D3).
  set (G := fun x => Derive P x + c N * top N ((x - m) / h) / h).
  assert (DP : forall x, Derive P x = dser N c ((x - m) / h) / h).
  { intros x. apply is_derive_unique. apply (is_derive_ext (fun x => ser N c ((x - m) / h))); [intros y; rewrite <- Hc; f_equal; field; lra|].
    evar_last.
    - apply (is_derive_comp (ser N c) (fun x => (x - m) / h)); [apply ser_derive|]. instantiate (1 := 1 / h). auto_derive; auto; lra.
    - unfold scal; simpl; unfold mult; simpl. field. lra. }
  assert (PG : poly_lt N G).
  { apply (poly_lt_ext N (fun x => (/ h) * (dser N c (- m / h + / h * x) + c N * top N (- m / h + / h * x)))).
    - intros x. unfold G. rewrite DP. replace (- m / h + / h * x) with ((x - m) / h) by (field; lra). field. lra.
    - apply poly_lt_scal. apply (poly_lt_affine N (fun t => dser N c t + c N * top N t)). apply poly_lt_plus; [apply dser_poly|]. apply poly_lt_scal, top_poly. lia. }
  assert (EV : rbind (chebt2 (map P (nodes2 n a b))) (fun c0 => ichebt2 (cheb_diff c0)) = Ok (map (fun j => h * G (m + h * cos (half (N - 1) j))) (seq 0 N))).
  { rewrite En, (nodes_series N a b P c Hc), chebt2_fun by lia. cbn [rbind].
    rewrite (map_fun_ext _ (fun i => c2 (N - i)%nat)).
    2:{ intros i Hi. unfold c2. destruct (Nat.eqb_spec i 0) as [->|Di]; [rewrite Nat.sub_0_r, Nat.eqb_refl; auto|]. replace (Nat.eqb (N - i) N) with false by (symmetry; apply Nat.eqb_neq; lia). auto. }
    rewrite D1, ichebt2_fun by lia. f_equal. replace (S (N - 1)) with N by lia. apply map_fun_ext. intros j Hj. unfold G. rewrite DP.
    set (t := cos (half (N - 1) j)). replace ((m + h * t - m) / h) with t by (field; lra).
    transitivity (ser (N - 1) d t - d (N - 1)%nat / 2 * T (N - 1) t).
    - unfold ser. replace (S (N - 1)) with N by lia.
      transitivity (bsum N (fun k => d k * T k t) + bsum N (fun k => if Nat.eqb k (N - 1) then - (d k / 2 * T k t) else 0)).
      + rewrite <- bsum_plus. apply bsum_ext. intros k Hk. destruct (Nat.eqb_spec k (N - 1)) as [->|]; field.
      + rewrite (bsum_one N (N - 1) (fun k => if Nat.eqb k (N - 1) then _ else 0)) by (try lia; intros i Hi Di; apply Nat.eqb_neq in Di; rewrite Di; auto). rewrite Nat.eqb_refl. ring.
    - rewrite D3, D2. unfold c2 at 2. rewrite Nat.eqb_refl. unfold top.
      assert (E : dser N c2 t = dser N c t + c N * (2 * INR N * V N t)).
      { unfold dser. rewrite !bsum_S. unfold c2 at 2. rewrite Nat.eqb_refl. rewrite (bsum_ext N _ (fun k => c k * (2 * INR k * V k t))); [ring|]. intros k Hk. unfold c2. replace (Nat.eqb k N) with false by (symmetry; apply Nat.eqb_neq; lia). auto. }
      rewrite E. field. lra. }
  destruct (on_cheb N a b G ltac:(lia) AB PG) as (q & Q1 & Q2 & _ & Q3). exists q. splits; auto.
  unfold diff2. cbn [bX bY].
  destruct (chebt2 (map P (nodes2 n a b))) as [l|e] eqn:E1; [|discriminate]. cbn [rbind] in EV |- *. rewrite EV. cbn [rbind]. rewrite ends_nodes by lia. cbn [rbind].
  rewrite <- Q1. f_equal. rewrite map_map, rev_fun. unfold nodes2. rewrite map_map. apply map_fun_ext. intros j Hj.
  replace ((b - a) * (1 / 2)) with h by (unfold h; field). replace N with (S (N - 1)) at 3 by lia. rewrite raw_half. fold m h. rewrite half_mirror by lia. field. lra.
Qed.
Lemma no_top N a b c P : (0 < N)%nat -> a < b -> (forall t, P ((a + b) / 2 + (b - a) / 2 * t) = ser N c t) -> poly_lt N P -> c N = 0.
Proof.
  intros H AB Hc PP. replace N with (S (N - 1)) in PP by lia. destruct (poly_series (N - 1) P ((a + b) / 2) ((b - a) / 2) PP) as (d & Hd).
  pose (e := fun k => if Nat.eqb k N then 0 else d k).
  assert (E : forall t, ser N e t = ser N c t).
  { intros t. rewrite <- Hc, Hd. unfold ser. replace (S (N - 1)) with N by lia. rewrite bsum_S. unfold e at 2. rewrite Nat.eqb_refl, Rmult_0_l, Rplus_0_r.
    apply bsum_ext. intros k Hk. unfold e. replace (Nat.eqb k N) with false by (symmetry; apply Nat.eqb_neq; lia). auto. }
  pose proof (chebt2_fun N e H) as X1. pose proof (chebt2_fun N c H) as X2.
  rewrite (map_fun_ext _ (fun j => ser N c (- cos (half N j)))) in X1 by (intros; apply E). rewrite X2 in X1. injection X1 as X1 _. unfold e in X1. rewrite Nat.eqb_refl in X1. lra.
Qed.
Lemma low_top N a b c P : (0 < N)%nat -> a < b -> (forall t, P ((a + b) / 2 + (b - a) / 2 * t) = ser N c t) -> c N = 0 -> poly_lt N P.
Proof.
  intros H AB Hc Z. set (m := (a + b) / 2) in *. set (h := (b - a) / 2) in *. assert (Hh : 0 < h) by (unfold h; lra).
  apply (poly_lt_ext N (fun x => ser (N - 1) c (- m / h + / h * x))).
  - intros x. replace x with (m + h * ((x - m) / h)) at 2 by (field; lra). rewrite Hc. unfold ser. replace (S (N - 1)) with N by lia. rewrite bsum_S, Z. replace (- m / h + / h * x) with ((x - m) / h) by (field; lra). ring.
  - apply (poly_lt_affine N (ser (N - 1) c)). replace N with (S (N - 1)) at 1 by lia. apply ser_poly.
Qed.
(** the transforms are inverse to each other up to the order *)
Lemma round_trip fs : (2 <= length fs)%nat -> exists c v, chebt2 fs = Ok c /\ length c = length fs /\ ichebt2 c = Ok v /\ rev v = fs.
Proof.
  intros H. set (N := (length fs - 1)%nat). destruct (data_series N fs ltac:(lia) ltac:(lia)) as (c & Hc). rewrite Hc.
  rewrite chebt2_fun by lia. eexists _, _. splits; [reflexivity|rewrite !fun_length; auto| |].
  - rewrite (map_fun_ext _ (fun i => (fun k => if Nat.eqb k N then 2 * c N else c k) (N - i)%nat)).
    + exact (ichebt2_fun N (fun k => if Nat.eqb k N then 2 * c N else c k) ltac:(lia)).
    + intros i Hi. cbv beta. destruct (Nat.eqb_spec i 0) as [->|Di]; [rewrite Nat.sub_0_r, Nat.eqb_refl; auto|]. replace (Nat.eqb (N - i) N) with false by (symmetry; apply Nat.eqb_neq; lia). auto.
  - rewrite rev_fun. apply map_fun_ext. intros j Hj. replace (S N - 1 - j)%nat with (N - j)%nat by lia. rewrite half_mirror by lia. unfold ser. apply bsum_ext. intros k Hk. rewrite Nat.eqb_refl.
    destruct (Nat.eqb_spec k N) as [->|]; auto. field.
Qed.
