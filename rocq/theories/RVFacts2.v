(** Proofs: operators on random variables. *)
From Coq Require Import Reals Lra Lia List Bool Arith.
From Coquelicot Require Import Coquelicot.
From Verif Require Import Base ND Models ModelsFacts RV RVSpec RVFacts.
Import List ListNotations.
Open Scope R_scope.

Lemma shift_value h d s m h' i w x : new_shift h d s m = Ok (h', i) -> value h w d x -> value h' w i (m * x + s).
Proof.
  intros H V. apply new_shift_inv in H as (c & G & N & -> & ->). eapply val_shift; [apply add_nth|reflexivity|]. eapply value_ext; eauto using add_ext.
Qed.
Lemma un_value h f d h' i w x y : new_un h f d = Ok (h', i) -> value h w d x -> un_is f x y -> value h' w i y.
Proof. intros H V U. apply new_un_inv in H as (c & G & -> & ->). eapply val_un; [apply add_nth|reflexivity| |exact U]. eapply value_ext; eauto using add_ext. Qed.
Lemma bin_value h o d1 d2 b h' i w x y z : new_bin h o d1 d2 b = Ok (h', i) -> value h w d1 x -> value h w d2 y -> bin_is o x y z -> value h' w i z.
Proof. intros H V1 V2 U. apply new_bin_inv in H as (c1 & c2 & G1 & G2 & -> & ->). eapply val_bin; [apply add_nth|reflexivity| | |exact U]; eapply value_ext; eauto using add_ext. Qed.
Lemma const_value h r h' i w : new_const h r = (h', i) -> value h' w i r.
Proof. unfold new_const, add_cell. intros [= <- <-]. eapply val_const; [apply add_nth|reflexivity]. Qed.

Lemma rv_of_inv r h' v : rv_of r = Ok (h', v) -> exists i, r = Ok (h', i) /\ v = VRV i.
Proof. unfold rv_of. destruct r as [[h i]|]; cbn; [|discriminate]. intros [= <- <-]. eauto. Qed.
Lemma shift_total h d s m : (d < length h)%nat -> m <> 0 -> exists h' i, new_shift h d s m = Ok (h', i).
Proof. intros L N. unfold new_shift. destruct (get_some h d L) as (c & E). rewrite (proj2 (get_ok h d c) E). cbn [rbind]. rewrite (proj2 (req_false _ _)) by auto. unfold add_cell. eauto. Qed.
Lemma un_total h f d : (d < length h)%nat -> exists h' i, new_un h f d = Ok (h', i).
Proof. intros L. unfold new_un. destruct (get_some h d L) as (c & E). rewrite (proj2 (get_ok h d c) E). cbn [rbind]. unfold add_cell. eauto. Qed.
Lemma bin_total h o d1 d2 b : (d1 < length h)%nat -> (d2 < length h)%nat -> exists h' i, new_bin h o d1 d2 b = Ok (h', i).
Proof. intros L1 L2. unfold new_bin. destruct (get_some h d1 L1) as (c1 & E1). destruct (get_some h d2 L2) as (c2 & E2). rewrite (proj2 (get_ok h d1 c1) E1), (proj2 (get_ok h d2 c2) E2). cbn [rbind]. unfold add_cell. eauto. Qed.

Lemma ln_nz r : 0 < r -> r <> 1 -> ln r <> 0.
Proof. intros P N E. apply N. rewrite <- (exp_ln r P), E. apply exp_0. Qed.

(** one shift *)
Lemma shift_ok h X s m h' v : wf_heap h -> rv_of (new_shift h X s m) = Ok (h', v) ->
  extends h h' /\ wf_heap h' /\ forall w x, value h w X x -> pvalue h' w v (m * x + s).
Proof.
  intros W H. apply rv_of_inv in H as (i & H & ->). pose proof (new_shift_wf _ _ _ _ _ _ W H) as (A & B & _). splits; auto. intros w x V. cbn. eapply shift_value; eauto.
Qed.
Lemma un_ok h f X h' v : wf_heap h -> rv_of (new_un h f X) = Ok (h', v) ->
  extends h h' /\ wf_heap h' /\ forall w x y, value h w X x -> un_is f x y -> pvalue h' w v y.
Proof.
  intros W H. apply rv_of_inv in H as (i & H & ->). pose proof (new_un_wf _ _ _ _ _ W H) as (A & B & _). splits; auto. intros w x y V U. cbn. eapply un_value; eauto.
Qed.
Lemma rmul_ok h X r h' v : wf_heap h -> rmul_num h X r = Ok (h', v) ->
  extends h h' /\ wf_heap h' /\ forall w x, value h w X x -> pvalue h' w v (x * r).
Proof.
  intros W. unfold rmul_num. destruct (get h X) as [c|] eqn:G; [|discriminate]. cbn [rbind]. destruct (req r 0) eqn:E0.
  - intros [= <- <-]. b2p. subst. splits; auto using ext_refl. intros w x V. cbn. ring.
  - destruct (c_distr c && req r 1) eqn:E1.
    + intros [= <- <-]. b2p. subst. splits; auto using ext_refl. intros w x V. cbn. rewrite Rmult_1_r. auto.
    + intros H. apply shift_ok in H as (A & B & C); auto. splits; auto. intros w x V. replace (x * r) with (r * x + 0) by ring. auto.
Qed.

Section Ops.
Variable nonneg : heap -> nat -> bool.
Lemma log_inv h X h' i : new_log nonneg h X = Ok (h', i) -> is_nonneg nonneg h X = Ok true /\ new_un h ULog X = Ok (h', i).
Proof. unfold new_log. destruct (is_nonneg nonneg h X) as [[|]|]; cbn; try discriminate. auto. Qed.

Lemma num_op_ok o left h X r h' v : wf_heap h -> num_op nonneg o left h X r = Ok (h', v) ->
  extends h h' /\ wf_heap h' /\ forall w x z, value h w X x -> arith o left x r z -> pvalue h' w v z.
Proof.
  intros W. destruct o, left; cbn [num_op arith].
  - unfold add_num. intros H. apply shift_ok in H as (A & B & C); auto. splits; auto. intros w x z V ->. replace (x + r) with (1 * x + r) by ring. auto.
  - unfold radd_num. intros H. apply shift_ok in H as (A & B & C); auto. splits; auto. intros w x z V ->. replace (x + r) with (1 * x + r) by ring. auto.
  - unfold sub_num. intros H. apply shift_ok in H as (A & B & C); auto. splits; auto. intros w x z V ->. replace (x - r) with (1 * x + - r) by ring. auto.
  - unfold rsub_num. intros H. apply shift_ok in H as (A & B & C); auto. splits; auto. intros w x z V ->. replace (r - x) with (Ropp 1 * x + r) by ring. auto.
  - unfold mul_num. destruct (req r 0) eqn:E.
    + intros [= <- <-]. b2p. subst. splits; auto using ext_refl. intros w x z V ->. cbn. ring.
    + intros H. apply shift_ok in H as (A & B & C); auto. splits; auto. intros w x z V ->. replace (x * r) with (r * x + 0) by ring. auto.
  - intros H. apply rmul_ok in H as (A & B & C); auto. splits; auto. intros w x z V ->. auto.
  - unfold div_num. destruct (get h X) as [c|] eqn:G; [|discriminate]. cbn [rbind]. destruct (c_distr c && req r 1) eqn:E1.
    + intros [= <- <-]. b2p. subst. splits; auto using ext_refl. intros w x z V (_ & ->). cbn. replace (x / 1) with x by field. auto.
    + destruct (req r 0) eqn:E0; [discriminate|]. intros H. apply shift_ok in H as (A & B & C); auto. splits; auto. intros w x z V (N & ->). replace (x / r) with (1 / r * x + 0) by (field; auto). auto.
  - unfold rdiv_num. destruct (req r 0) eqn:E0.
    + intros [= <- <-]. b2p. subst. splits; auto using ext_refl. intros w x z V (N & ->). cbn. unfold Rdiv. ring.
    + destruct (new_un h UInv X) as [[h1 i]|] eqn:U; [|discriminate]. cbn [rbind fst snd]. intros H. pose proof (new_un_wf _ _ _ _ _ W U) as (W1 & X1 & _).
      apply rmul_ok in H as (A & B & C); auto. splits; auto; [eapply ext_trans; eauto|]. intros w x z V (N & ->). replace (r / x) with (/ x * r) by (field; auto). apply C. eapply un_value; eauto. constructor. auto.
  - unfold pow_num. destruct (req r 0) eqn:E0; [|destruct (req r 1) eqn:E1; [|destruct (req r (Ropp 1)) eqn:E2; [|destruct (req r 2) eqn:E3]]]; b2p.
    + intros [= <- <-]. subst. splits; auto using ext_refl. intros w x z V H. cbn. destruct H as [(P & ->)|[(_ & ->)|[(F & _)|[(F & _)|(F & _)]]]]; try lra. apply Rpower_O. auto.
    + intros [= <- <-]. subst. splits; auto using ext_refl. intros w x z V H. cbn. destruct H as [(P & ->)|[(F & _)|[(_ & ->)|[(F & _)|(F & _)]]]]; try lra; auto. rewrite Rpower_1; auto.
    + intros H. apply un_ok in H as (A & B & C); auto. splits; auto. subst r. intros w x z V Z. destruct Z as [(P & ->)|[(F & _)|[(F & _)|[(_ & N & ->)|(F & _)]]]]; try lra.
      * apply C with x; auto. rewrite Rpower_Ropp, Rpower_1 by auto. constructor. lra.
      * apply C with x; auto. constructor. auto.
    + intros H. apply un_ok in H as (A & B & C); auto. splits; auto. subst r. intros w x z V Z. apply C with x; auto. destruct Z as [(P & ->)|[(F & _)|[(F & _)|[(F & _)|(_ & ->)]]]]; try lra; [|constructor].
      replace (Rpower x 2) with (x ^ 2); [constructor|]. rewrite <- Rpower_pow by auto. f_equal.
    + destruct (new_log nonneg h X) as [[h1 i]|] eqn:L; [|discriminate]. cbn [rbind fst snd]. apply log_inv in L as (NN & L). pose proof (new_un_wf _ _ _ _ _ W L) as (W1 & X1 & _).
      destruct (new_shift h1 i 0 r) as [[h2 j]|] eqn:S2; [|discriminate]. cbn [rbind fst snd]. pose proof (new_shift_wf _ _ _ _ _ _ W1 S2) as (W2 & X2 & _).
      intros H. apply un_ok in H as (A & B & C); auto. splits; auto; [eapply ext_trans; [|exact A]; eapply ext_trans; eauto|]. intros w x z V Z.
      destruct Z as [(P & ->)|[(F & _)|[(F & _)|[(F & _)|(F & _)]]]]; try lra. unfold Rpower. replace (r * ln x) with (r * ln x + 0) by ring. eapply C; [|constructor]. eapply shift_value; eauto. eapply un_value; eauto. constructor. auto.
  - unfold rpow_num. destruct (req r 0) eqn:E0; [|destruct (req r 1) eqn:E1; [|destruct (rlt r 0) eqn:E2; [discriminate|]]]; b2p.
    + intros [= <- <-]. subst. splits; auto using ext_refl. intros w x z V [(F & _)|(_ & _ & ->)]; [lra|]. cbn. auto.
    + intros [= <- <-]. subst. splits; auto using ext_refl. intros w x z V [(P & ->)|(F & _)]; [|lra]. cbn. unfold Rpower. rewrite ln_1, Rmult_0_r, exp_0. auto.
    + destruct (new_shift h X 0 (ln r)) as [[h1 i]|] eqn:S1; [|discriminate]. cbn [rbind fst snd]. pose proof (new_shift_wf _ _ _ _ _ _ W S1) as (W1 & X1 & _).
      intros H. apply un_ok in H as (A & B & C); auto. splits; auto; [eapply ext_trans; eauto|]. intros w x z V [(P & ->)|(F & _)]; [|lra]. unfold Rpower. replace (x * ln r) with (ln r * x + 0) by ring. eapply C; [|constructor]. eapply shift_value; eauto.
Qed.

Definition special (r : R) : Prop := r = 0 \/ r = 1 \/ r = -1 \/ r = 2.
Lemma log_total h X : (X < length h)%nat -> is_nonneg nonneg h X = Ok true -> exists h' i, new_log nonneg h X = Ok (h', i) /\ (i < length h')%nat.
Proof. intros L N. unfold new_log. rewrite N. cbn [rbind]. destruct (un_total h ULog X L) as (h' & i & E). exists h', i. split; auto. apply new_un_inv in E as (c & _ & -> & ->). rewrite app_length. cbn. lia. Qed.
Lemma num_op_fails o left h X r e : wf_heap h -> (X < length h)%nat -> num_op nonneg o left h X r = Err e <->
  (o = NDiv /\ left = true /\ r = 0 /\ e = EZeroDiv) \/
  (o = NPow /\ left = true /\ ~ special r /\ (is_nonneg nonneg h X = Err e \/ is_nonneg nonneg h X = Ok false /\ e = EValue)) \/
  (o = NPow /\ left = false /\ r < 0 /\ e = EValue).
Proof.
  intros W L.
  assert (SH : forall s m, m <> 0 -> rv_of (new_shift h X s m) <> Err e) by (intros s m M; destruct (shift_total h X s m L M) as (h' & i & ->); discriminate).
  assert (UN : forall f, rv_of (new_un h f X) <> Err e) by (intros f; destruct (un_total h f X L) as (h' & i & ->); discriminate).
  destruct (get_some h X L) as (c & G). pose proof (proj2 (get_ok h X c) G) as G'.
  destruct o, left; cbn [num_op].
  1-6: split; [|intros [(F & _)|[(F & _)|(F & _)]]; discriminate].
  - intros H. exfalso. refine (SH r 1 _ H). lra.
  - intros H. exfalso. refine (SH r 1 _ H). lra.
  - intros H. exfalso. refine (SH (- r) 1 _ H). lra.
  - intros H. exfalso. refine (SH r (Ropp 1) _ H). lra.
  - unfold mul_num. destruct (req r 0) eqn:E; [discriminate|]. b2p. intros H. exfalso. exact (SH 0 r E H).
  - unfold rmul_num. rewrite G'. cbn [rbind]. destruct (req r 0) eqn:E; [discriminate|]. destruct (c_distr c && req r 1); [discriminate|]. b2p. intros H. exfalso. exact (SH 0 r E H).
  - unfold div_num. rewrite G'. cbn [rbind]. destruct (c_distr c && req r 1) eqn:E1.
    + b2p. subst. split; [discriminate|]. intros [(_ & _ & F & _)|[(F & _)|(F & _)]]; try discriminate. lra.
    + destruct (req r 0) eqn:E0; b2p.
      * split; [intros [= <-]; auto|]. intros [(_ & _ & _ & ->)|[(F & _)|(F & _)]]; try discriminate. auto.
      * split; [intros H; exfalso; refine (SH 0 (1 / r) _ H); unfold Rdiv; rewrite Rmult_1_l; apply Rinv_neq_0_compat; auto|]. intros [(_ & _ & F & _)|[(F & _)|(F & _)]]; try discriminate. tauto.
  - unfold rdiv_num. split; [|intros [(_ & F & _)|[(F & _)|(F & _)]]; discriminate]. destruct (req r 0) eqn:E0; [discriminate|]. destruct (un_total h UInv X L) as (h' & i & U). rewrite U. cbn [rbind fst snd].
    pose proof (new_un_wf _ _ _ _ _ W U) as (W1 & _ & _ & L1). unfold rmul_num. destruct (get_some h' i L1) as (c1 & G1). rewrite (proj2 (get_ok h' i c1) G1). cbn [rbind]. rewrite E0. destruct (c_distr c1 && req r 1); [discriminate|]. b2p.
    destruct (shift_total h' i 0 r L1 E0) as (h2 & j & ->). discriminate.
  - unfold pow_num. destruct (req r 0) eqn:E0; [|destruct (req r 1) eqn:E1; [|destruct (req r (Ropp 1)) eqn:E2; [|destruct (req r 2) eqn:E3]]]; b2p.
    + split; [discriminate|]. intros [(F & _)|[(_ & _ & F & _)|(_ & F & _)]]; try discriminate. exfalso. apply F. red. auto.
    + split; [discriminate|]. intros [(F & _)|[(_ & _ & F & _)|(_ & F & _)]]; try discriminate. exfalso. apply F. red. auto.
    + split; [intros H; exfalso; eapply UN; eauto|]. intros [(F & _)|[(_ & _ & F & _)|(_ & F & _)]]; try discriminate. exfalso. apply F. red. subst r. auto.
    + split; [intros H; exfalso; eapply UN; eauto|]. intros [(F & _)|[(_ & _ & F & _)|(_ & F & _)]]; try discriminate. exfalso. apply F. red. auto.
    + assert (NS : ~ special r) by (intros [F|[F|[F|F]]]; auto). destruct (is_nonneg nonneg h X) as [[|]|e'] eqn:EN.
      * destruct (log_total h X L EN) as (h1 & i & -> & L1). cbn [rbind fst snd]. destruct (shift_total h1 i 0 r L1 E0) as (h2 & j & S2). rewrite S2. cbn [rbind fst snd].
        assert (L2 : (j < length h2)%nat) by (apply new_shift_inv in S2 as (cc & _ & _ & -> & ->); rewrite app_length; cbn; lia). destruct (un_total h2 UExp j L2) as (h3 & k & ->). split; [discriminate|].
        intros [(F & _)|[(_ & _ & _ & [F|(F & _)])|(_ & F & _)]]; discriminate.
      * unfold new_log. rewrite EN. cbn [rbind]. split; [intros [= <-]; right; left; splits; auto|]. intros [(F & _)|[(_ & _ & _ & [F|(_ & ->)])|(_ & F & _)]]; try discriminate. auto.
      * unfold new_log. rewrite EN. cbn [rbind]. split; [intros [= <-]; right; left; splits; auto|]. intros [(F & _)|[(_ & _ & _ & [F|(F & _)])|(_ & F & _)]]; try discriminate. congruence.
  - unfold rpow_num. destruct (req r 0) eqn:E0; [|destruct (req r 1) eqn:E1; [|destruct (rlt r 0) eqn:E2]]; b2p.
    + split; [discriminate|]. intros [(F & _)|[(_ & F & _)|(_ & _ & F & _)]]; try discriminate. lra.
    + split; [discriminate|]. intros [(F & _)|[(_ & F & _)|(_ & _ & F & _)]]; try discriminate. lra.
    + split; [intros [= <-]; right; right; splits; auto|]. intros [(F & _)|[(_ & F & _)|(_ & _ & F & ->)]]; try discriminate. auto.
    + assert (LN : ln r <> 0) by (apply ln_nz; auto; lra). destruct (shift_total h X 0 (ln r) L LN) as (h1 & i & S1). rewrite S1. cbn [rbind fst snd].
      assert (L1 : (i < length h1)%nat) by (apply new_shift_inv in S1 as (cc & _ & _ & -> & ->); rewrite app_length; cbn; lia). destruct (un_total h1 UExp i L1) as (h3 & k & ->). split; [discriminate|]. intros [(F & _)|[(_ & F & _)|(_ & _ & F & _)]]; try discriminate. lra.
Qed.

(** operators between two variables *)
Lemma bin_rv_ok o h X Y h' v : wf_heap h -> bin_rv o h X Y = Ok (h', v) ->
  extends h h' /\ wf_heap h' /\ forall w x y z, value h w X x -> value h w Y y -> bin_is o x y z -> pvalue h' w v z.
Proof.
  intros W. unfold bin_rv. destruct (get h X) as [c1|] eqn:G1; [|discriminate]. destruct (get h Y) as [c2|] eqn:G2; [|discriminate]. cbn [rbind].
  intros H. assert (E : exists b, rv_of (new_bin h o X Y b) = Ok (h', v)) by (destruct (c_distr c1); [destruct (c_distr c2); [|discriminate]|]; eauto). destruct E as (b & E). clear H.
  apply rv_of_inv in E as (i & E & ->). pose proof (new_bin_wf _ _ _ _ _ _ _ W E) as (A & B & _). splits; auto. intros w x y z V1 V2 Z. cbn. eapply bin_value; eauto.
Qed.
Lemma pow_rv_ok h X Y h' v : wf_heap h -> pow_rv nonneg h X Y = Ok (h', v) ->
  extends h h' /\ wf_heap h' /\ forall w x y, value h w X x -> value h w Y y -> 0 < x -> pvalue h' w v (Rpower x y).
Proof.
  intros W. unfold pow_rv. destruct (get h X) as [c1|] eqn:G1; [|discriminate]. destruct (get h Y) as [c2|] eqn:G2; [|discriminate]. cbn [rbind]. destruct (c_distr c1 && negb (c_distr c2)); [discriminate|].
  destruct (new_log nonneg h X) as [[h1 i]|] eqn:L; [|discriminate]. cbn [rbind fst snd]. apply log_inv in L as (NN & L). pose proof (new_un_wf _ _ _ _ _ W L) as (W1 & X1 & _).
  destruct (new_bin h1 OMul i Y (c_distr c1)) as [[h2 j]|] eqn:S2; [|discriminate]. cbn [rbind fst snd]. pose proof (new_bin_wf _ _ _ _ _ _ _ W1 S2) as (W2 & X2 & _).
  intros H. apply un_ok in H as (A & B & C); auto. splits; auto; [eapply ext_trans; [|exact A]; eapply ext_trans; eauto|]. intros w x y V1 V2 P.
  unfold Rpower. replace (y * ln x) with (ln x * y) by ring. eapply C; [|constructor]. eapply bin_value; eauto; [|eapply value_ext; eauto|constructor]. eapply un_value; eauto. constructor. auto.
Qed.
Lemma minmax_ok o h a b h' v : wf_heap h -> minmax o h a b = Ok (h', v) ->
  extends h h' /\ wf_heap h' /\ forall w x y z, pvalue h w a x -> pvalue h w b y -> bin_is o x y z -> pvalue h' w v z.
Proof.
  intros W. unfold minmax. destruct a as [u|X], b as [t|Y].
  - destruct (bin_val o u t) as [q|] eqn:E; [|discriminate]. cbn [rmap]. intros [= <- <-]. splits; auto using ext_refl. intros w x y z -> -> Z. cbn. apply bin_val_is in Z. congruence.
  - destruct (get h Y) as [c|] eqn:G; [|discriminate]. cbn [rbind]. destruct (c_distr c); [|discriminate]. destruct (new_const h u) as [h1 X] eqn:NC. pose proof (new_const_wf _ _ _ _ W NC) as (W1 & X1 & _).
    intros H. apply rv_of_inv in H as (i & E & ->). pose proof (new_bin_wf _ _ _ _ _ _ _ W1 E) as (A & B & _). splits; auto; [eapply ext_trans; eauto|]. cbn. intros w x y z -> V2 Z. eapply bin_value; eauto; [eapply const_value; eauto|eapply value_ext; eauto].
  - destruct (get h X) as [c|] eqn:G; [|discriminate]. cbn [rbind]. destruct (c_distr c); [|discriminate]. destruct (new_const h t) as [h1 Y] eqn:NC. pose proof (new_const_wf _ _ _ _ W NC) as (W1 & X1 & _).
    intros H. apply rv_of_inv in H as (i & E & ->). pose proof (new_bin_wf _ _ _ _ _ _ _ W1 E) as (A & B & _). splits; auto; [eapply ext_trans; eauto|]. cbn. intros w x y z V1 -> Z. eapply bin_value; eauto; [eapply value_ext; eauto|eapply const_value; eauto].
  - destruct (get h X) as [c1|] eqn:G1; [|discriminate]. destruct (get h Y) as [c2|] eqn:G2; [|discriminate]. cbn [rbind].
    intros H. assert (E : exists b, rv_of (new_bin h o X Y b) = Ok (h', v)) by (destruct (c_distr c1 && c_distr c2); [|destruct (c_distr c1 || c_distr c2); [discriminate|]]; eauto). destruct E as (b & E). clear H.
    apply rv_of_inv in E as (i & E & ->). pose proof (new_bin_wf _ _ _ _ _ _ _ W E) as (A & B & _). splits; auto. cbn. intros w x y z V1 V2 Z. eapply bin_value; eauto.
Qed.
End Ops.
Lemma neg_ok h X h' v : wf_heap h -> neg_ h X = Ok (h', v) -> extends h h' /\ wf_heap h' /\ forall w x, value h w X x -> pvalue h' w v (- x).
Proof. intros W H. apply shift_ok in H as (A & B & C); auto. splits; auto. intros w x V. replace (- x) with (Ropp 1 * x + 0) by ring. auto. Qed.
Lemma abs_ok h X h' v : wf_heap h -> abs_ h X = Ok (h', v) -> extends h h' /\ wf_heap h' /\ forall w x, value h w X x -> pvalue h' w v (Rabs x).
Proof.
  intros W. unfold abs_. destruct (get h X) as [c|]; [|discriminate]. cbn [rbind]. destruct (c_distr c); [|discriminate]. intros H. apply un_ok in H as (A & B & C); auto. splits; auto. intros w x V. eapply C; eauto. constructor.
Qed.
