(** Main lemmas: i.i.d. operations (C39). *)
From Coq Require Import Reals ZArith Lra Lia List Arith.
From Verif Require Import Base Iid IidSpec.
Import List ListNotations.
Open Scope R_scope.

Lemma nfold_add {A} (m : A -> A -> A) x : (forall a b c, m (m a b) c = m a (m b c)) -> forall j i, m (nfold m x i) (nfold m x j) = nfold m x (i + j + 1).
Proof.
  intros AS. induction j; intros i; [simpl; rewrite Nat.add_0_r, Nat.add_1_r; auto|].
  simpl. rewrite <- AS, IHj. replace (i + S j + 1)%nat with (S (i + j + 1)) by lia. auto.
Qed.
Lemma eval_nfold {A} (m : A -> A -> A) x t : (forall a b c, m (m a b) c = m a (m b c)) -> eval (fun a b => Ok (m a b)) x t = Ok (nfold m x (leaves t - 1)).
Proof.
  intros AS. assert (P : forall t, (1 <= leaves t)%nat) by (induction t0; simpl; lia).
  induction t; simpl; auto. rewrite IHt1, IHt2. simpl. rewrite nfold_add by auto. do 2 f_equal. pose proof (P t1); pose proof (P t2); lia.
Qed.

(** the bracketing built by the digits *)
Fixpoint grow (bs : list bool) (t : tree) : tree :=
  match bs with [] => t | b :: bs' => grow bs' (if b then Node (Node t t) Leaf else Node t t) end.
Definition val (bs : list bool) (n : nat) : nat := fold_left (fun n (b : bool) => (2 * n + if b then 1 else 0)%nat) bs n.
Lemma grow_leaves bs : forall t, leaves (grow bs t) = val bs (leaves t).
Proof. induction bs as [|b bs IH]; intros t; simpl; auto. rewrite IH. unfold val. simpl. f_equal. destruct b; simpl; lia. Qed.
Lemma grow_err {A} (op : A -> A -> res A) x e bs : forall t, eval op x t = Err e -> eval op x (grow bs t) = Err e.
Proof. induction bs as [|b bs IH]; intros t E; simpl; auto. apply IH. destruct b; simpl; rewrite E; auto. Qed.
Lemma grow_eval {A} (op : bool -> A -> A -> res A) w x bs : forall t,
  rbind (eval (op w) x t) (fun v => int_exp_loop A op w x (Some v) bs) = rmap Some (eval (op w) x (grow bs t)).
Proof.
  induction bs as [|b bs IH]; intros t.
  - simpl. destruct (eval (op w) x t); auto.
  - cbn [grow int_exp_loop]. rewrite <- IH. destruct (eval (op w) x t) as [v|e] eqn:E; cbn [rbind].
    + destruct b; cbn [eval]; rewrite E; cbn [rbind]; destruct (op w v v) as [u|]; cbn [rbind rmap]; auto.
      destruct (op w u x); cbn [rbind rmap]; auto.
    + destruct b; cbn [eval]; rewrite E; auto.
Qed.
Lemma val_app bs bs' n : val (bs ++ bs') n = val bs' (val bs n).
Proof. unfold val. apply fold_left_app. Qed.
Lemma pbits_val p : forall acc, val (pbits p acc) 0 = val acc (Pos.to_nat p) /\ exists tl, pbits p acc = true :: tl.
Proof.
  induction p; intros acc; simpl.
  - destruct (IHp (true :: acc)) as (E & H). split; auto. rewrite E. unfold val. simpl. f_equal. lia.
  - destruct (IHp (false :: acc)) as (E & H). split; auto. rewrite E. unfold val. simpl. f_equal. lia.
  - split; eauto. 
Qed.
Lemma int_exp_tree {A} (op : bool -> A -> A -> res A) w x n : (0 < n)%N ->
  exists t, leaves t = N.to_nat n /\ int_exp A op w x n = rmap Some (eval (op w) x t).
Proof.
  intros H. destruct n as [|p]; [lia|]. unfold int_exp. cbn [bin_digits].
  destruct (pbits_val p []) as (V & tl & E). exists (grow tl Leaf). rewrite grow_leaves. rewrite E in *. split.
  - rewrite <- positive_N_nat in *. exact V.
  - cbn [int_exp_loop rbind]. rewrite <- grow_eval. reflexivity.
Qed.

(** C39: the result is a bracketed combination of exactly n copies of X, computed with the dependence
    warning off, for every operation, also one that may raise; the flag is restored when nothing is raised. *)
Lemma iid_copies_main :
  forall (A : Type) (op : bool -> A -> A -> res A) flag x n, (0 < n)%N ->
  exists t, leaves t = N.to_nat n /\
    snd (iid_op A op flag x n) = rmap Some (eval (op false) x t) /\
    (forall y, snd (iid_op A op flag x n) = Ok y -> fst (iid_op A op flag x n) = flag).
Proof.
  intros A op flag x n H. destruct (int_exp_tree op false x n H) as (t & L & E). exists t. split; auto.
  unfold iid_op. rewrite E. destruct (eval (op false) x t); simpl; split; auto; discriminate.
Qed.

(** C39: for an associative operation that is the n-fold combination. *)
Lemma iid_value_main :
  forall (A : Type) (m : A -> A -> A) flag x n, (forall a b c, m (m a b) c = m a (m b c)) -> (0 < n)%N ->
  iid_op A (fun _ a b => Ok (m a b)) flag x n = (flag, Ok (Some (nfold m x (N.to_nat n - 1)))).
Proof.
  intros A m flag x n AS H. unfold iid_op.
  destruct (int_exp_tree (fun _ a b => Ok (m a b)) false x n H) as (t & L & E). rewrite E, eval_nfold by auto. rewrite L. auto.
Qed.
(** C39: n = 0 gives None, without an error. *)
Lemma iid_zero_main :
  forall (A : Type) (op : bool -> A -> A -> res A) flag x, iid_op A op flag x 0 = (flag, Ok None).
Proof. reflexivity. Qed.

Lemma all_loop_tree {A} (op : bool -> A -> A -> res A) w x : forall todo l ts, length l = length ts -> (1 <= length l)%nat ->
  (forall i t, nth_error ts i = Some t -> leaves t = S i) ->
  Forall2 (fun v t => eval (op w) x t = Ok v) l ts ->
  forall r, int_exp_all_loop A op w l (S (length l)) todo = Ok r ->
  exists ts', length r = (length l + todo)%nat /\ (forall i t, nth_error ts' i = Some t -> leaves t = S i) /\
    Forall2 (fun v t => eval (op w) x t = Ok v) r ts'.
Proof.
  induction todo; intros l ts EL L LV F r E; cbn [int_exp_all_loop] in E.
  - injection E as <-. exists ts. splits; auto; lia.
  - set (i := S (length l)) in *.
    assert (I1 : (i / 2 - 1 < length l)%nat) by (unfold i; pose proof (Nat.div_le_upper_bound (S (length l)) 2 (length l)); lia).
    assert (I2 : (1 <= i / 2)%nat) by (unfold i; pose proof (Nat.div_le_lower_bound (S (length l)) 2 1); lia).
    assert (I3 : (i - i / 2 - 1 < length l)%nat) by (unfold i in *; lia).
    assert (I4 : (1 <= i - i / 2)%nat) by (pose proof (Nat.div_lt i 2); lia).
    destruct (nth_error l (i / 2 - 1)) as [u|] eqn:E1; [|discriminate].
    destruct (nth_error l (i - i / 2 - 1)) as [v|] eqn:E2; [|discriminate].
    assert (G : forall k u, nth_error l k = Some u -> exists t, nth_error ts k = Some t /\ eval (op w) x t = Ok u).
    { clear - F. intros k. revert l ts F. induction k; intros l ts F u E; destruct F; simpl in E; try discriminate.
      - injection E as <-. exists y; auto.
      - apply (IHk _ _ F u E). }
    destruct (G _ _ E1) as (t1 & T1 & V1). destruct (G _ _ E2) as (t2 & T2 & V2).
    destruct (op w u v) as [z|] eqn:EO; cbn [rbind] in E; try discriminate.
    assert (E' : int_exp_all_loop A op w (l ++ [z]) (S (length (l ++ [z]))) todo = Ok r).
    { rewrite app_length. simpl length. replace (S (length l + 1)) with (S i) by (unfold i; lia). exact E. }
    destruct (IHtodo (l ++ [z]) (ts ++ [Node t1 t2])) with (r := r) as (ts' & H1 & H2 & H3); auto.
    + rewrite !app_length. simpl. lia.
    + rewrite app_length. simpl. lia.
    + intros k t Hk. destruct (lt_dec k (length ts)) as [Lk|Lk].
      * rewrite nth_error_app1 in Hk by auto. apply LV; auto.
      * rewrite nth_error_app2 in Hk by lia. destruct (k - length ts)%nat as [|d] eqn:Ed; simpl in Hk; [|destruct d; discriminate].
        injection Hk as <-. simpl. rewrite (LV _ _ T1), (LV _ _ T2). unfold i in *. lia.
    + apply Forall2_app; auto. constructor; auto. simpl. rewrite V1. cbn [rbind]. rewrite V2. auto.
    + exists ts'. splits; auto. rewrite H1, app_length. simpl. lia.
Qed.

(** C39: the "all" variant lists, for i = 1..n, a combination of exactly i copies. *)
Lemma iid_all_copies_main :
  forall (A : Type) (op : bool -> A -> A -> res A) flag x n l, (1 <= n)%nat -> snd (iid_op_all A op flag x n) = Ok l ->
  fst (iid_op_all A op flag x n) = flag /\ length l = n /\
  forall i v, nth_error l i = Some v -> exists t, leaves t = S i /\ eval (op false) x t = Ok v.
Proof.
  intros A op flag x n l N E. unfold iid_op_all in *. destruct n as [|m]; [lia|]. unfold int_exp_all in *.
  destruct (int_exp_all_loop A op false [x] 2 m) as [r|] eqn:EL; simpl in *; try discriminate. injection E as <-. split; auto.
  destruct (all_loop_tree op false x m [x] [Leaf]) with (r := r) as (ts & H1 & H2 & H3); auto.
  - intros [|i] t H; simpl in H; [injection H as <-; auto|destruct i; discriminate].
  - split; auto. clear - H2 H3. intros i v Hi.
    assert (G : exists t, nth_error ts i = Some t /\ eval (op false) x t = Ok v).
    { clear H2. revert r ts H3 Hi. induction i; intros r ts F Hi; destruct F; simpl in Hi; try discriminate.
      - injection Hi as <-. exists y; auto.
      - apply (IHi _ _ F Hi). }
    destruct G as (t & G1 & G2). exists t. split; auto.
Qed.
Lemma nth_error_ext_l {A} (l l' : list A) : (forall i, nth_error l i = nth_error l' i) -> l = l'.
Proof.
  revert l'. induction l as [|a l IH]; intros [|b l'] H; auto; try (specialize (H O); discriminate).
  f_equal; [specialize (H O); simpl in H; congruence|apply IH; intros i; apply (H (S i))].
Qed.
(** C39: for an associative operation that never raises the list is X, X+X, ..., the n-fold combination. *)
Lemma iid_all_value_main :
  forall (A : Type) (m : A -> A -> A) flag x n, (forall a b c, m (m a b) c = m a (m b c)) -> (1 <= n)%nat ->
  iid_op_all A (fun _ a b => Ok (m a b)) flag x n = (flag, Ok (map (nfold m x) (seq 0 n))).
Proof.
  intros A m flag x n AS N.
  assert (OKL : exists l, int_exp_all A (fun _ a b => Ok (m a b)) false x n = Ok l).
  { destruct n as [|k]; [lia|]. unfold int_exp_all.
    assert (G : forall todo l, (1 <= length l)%nat -> exists r, int_exp_all_loop A (fun _ a b => Ok (m a b)) false l (S (length l)) todo = Ok r).
    { induction todo; intros l L; cbn [int_exp_all_loop]; eauto. set (i := S (length l)) in *.
      assert (I1 : (i / 2 - 1 < length l)%nat) by (unfold i; pose proof (Nat.div_le_upper_bound (S (length l)) 2 (length l)); lia).
      assert (I2 : (1 <= i / 2)%nat) by (unfold i; pose proof (Nat.div_le_lower_bound (S (length l)) 2 1); lia).
      assert (I3 : (i - i / 2 - 1 < length l)%nat) by (unfold i in *; lia).
      destruct (nth_error l (i / 2 - 1)) as [u|] eqn:E1; [|apply nth_error_None in E1; lia].
      destruct (nth_error l (i - i / 2 - 1)) as [v|] eqn:E2; [|apply nth_error_None in E2; lia].
      cbn [rbind]. destruct (IHtodo (l ++ [m u v])) as (r & Er); [rewrite app_length; simpl; lia|]. exists r.
      rewrite app_length in Er. simpl length in Er. replace (S (length l + 1)) with (S i) in Er by (unfold i; lia). exact Er. }
    apply (G k [x]). simpl. lia. }
  destruct OKL as (l & E).
  assert (S0 : snd (iid_op_all A (fun _ a b => Ok (m a b)) flag x n) = Ok l) by (unfold iid_op_all; rewrite E; auto).
  destruct (iid_all_copies_main A (fun _ a b => Ok (m a b)) flag x n l N S0) as (_ & LEN & ALL).
  unfold iid_op_all. rewrite E. do 2 f_equal.
  apply nth_error_ext_l. intros i. destruct (lt_dec i n) as [L|L].
  - destruct (nth_error l i) as [v|] eqn:Ei; [|apply nth_error_None in Ei; lia].
    destruct (ALL i v Ei) as (t & T1 & T2). rewrite eval_nfold in T2 by auto. injection T2 as <-.
    rewrite T1. simpl. rewrite Nat.sub_0_r.
    rewrite (map_nth_error (nfold m x) i (seq 0 n) (d := i)); auto.
    rewrite (nth_error_nth' (seq 0 n) 0%nat) by (rewrite seq_length; auto). rewrite seq_nth; auto.
  - transitivity (@None A); [apply nth_error_None; lia|]. symmetry. apply nth_error_None. rewrite map_length, seq_length. lia.
Qed.
(** C39 (finding): when the operation raises, the dependence warning stays switched off. *)
Lemma iid_flag_refuted_main :
  exists (A : Type) (op : bool -> A -> A -> res A) x n e, iid_op A op true x n = (false, Err e).
Proof. exists nat, (fun _ _ _ => Err EAssert), 0%nat, 2%N, EAssert. reflexivity. Qed.

(** C39: averages: entry i of the "all" list is the (i+1)-fold sum divided by i+1. *)
Lemma iid_average_all_value_main :
  forall (A : Type) (m : A -> A -> A) divn flag x n, (forall a b c, m (m a b) c = m a (m b c)) -> (1 <= n)%nat ->
  iid_average_all A (fun _ a b => Ok (m a b)) divn flag x n = (flag, Ok (map (fun i => divn (nfold m x i) (i + 1)%nat) (seq 0 n))).
Proof.
  intros A m divn flag x n AS N. unfold iid_average_all. rewrite iid_all_value_main by auto. cbn [rmap]. do 2 f_equal.
  rewrite map_length, seq_length. clear.
  assert (G : forall k, map (fun ia => divn (snd ia) (fst ia + 1)%nat) (combine (seq k n) (map (nfold m x) (seq k n))) = map (fun i => divn (nfold m x i) (i + 1)%nat) (seq k n)).
  { induction n; intros k; cbn [seq map combine]; auto. rewrite IHn. auto. }
  apply G.
Qed.
(** C39 (finding): the geometric averages in the "all" list take the n-th root of every entry, so only the
    last one is an average: for X = 2 (n = 2) the first entry is not 2. *)
Lemma iid_average_geom_all_refuted_main :
  exists l v, iid_average_geom_all R (fun _ a b => Ok (a * b)) (fun a k => Rpower a (1 / INR k)) true 2 2 = (true, Ok l) /\
    nth_error l 0 = Some v /\ v <> Rpower (nfold Rmult 2 0) (1 / INR 1).
Proof.
  eexists. exists (Rpower 2 (1 / INR 2)). split; [reflexivity|]. split; [reflexivity|].
  simpl. apply Rlt_not_eq. apply Rpower_lt; lra.
Qed.
