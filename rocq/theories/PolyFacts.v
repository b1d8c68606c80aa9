(** Polynomial functions: division by a root, uniqueness, Lagrange's formula. *)
From Coq Require Import Reals Lra Lia List Bool Arith.
From Verif Require Import Base Interp InterpSpec.
Import List ListNotations.
Open Scope R_scope.

Definition prodR (l : list R) : R := fold_right Rmult 1 l.
Definition nodal (l : list R) (x : R) : R := prodR (map (fun r => x - r) l).
Definition others {A} (i : nat) (l : list A) : list A := firstn i l ++ skipn (S i) l.

Lemma poly_lt_ext n f g : (forall x, f x = g x) -> poly_lt n f -> poly_lt n g.
Proof. intros E (cs & H & K). exists cs. split; auto. intros x. rewrite <- E. auto. Qed.
Lemma poly_lt_0 n : poly_lt n (fun _ => 0).
Proof. exists (repeat 0 n). split; [apply repeat_length|]. intros x. induction n; simpl; auto. rewrite <- IHn. ring. Qed.
Lemma poly_lt_cons n f c : poly_lt n f -> poly_lt (S n) (fun x => c + x * f x).
Proof. intros (cs & H & K). exists (c :: cs). split; [simpl; auto|]. intros x. simpl. rewrite K. auto. Qed.
Lemma poly_lt_inv n f : poly_lt (S n) f -> exists c g, poly_lt n g /\ forall x, f x = c + x * g x.
Proof.
  intros (cs & H & K). destruct cs as [|c cs]; [discriminate|]. exists c, (poly cs). split; [|auto]. exists cs. split; auto.
Qed.
Lemma poly_lt_const n c : poly_lt (S n) (fun _ => c).
Proof. eapply poly_lt_ext; [|apply (poly_lt_cons n (fun _ => 0) c), poly_lt_0]. intros x. simpl. ring. Qed.
Lemma poly_lt_plus n f g : poly_lt n f -> poly_lt n g -> poly_lt n (fun x => f x + g x).
Proof.
  revert f g. induction n; intros f g F G.
  - destruct F as (c & F & Ef), G as (d & G & Eg). destruct c, d; try discriminate. eapply poly_lt_ext; [|apply poly_lt_0]. intros x. rewrite Ef, Eg. simpl. ring.
  - apply poly_lt_inv in F as (c & f' & F & Ef). apply poly_lt_inv in G as (d & g' & G & Eg).
    eapply poly_lt_ext; [|apply (poly_lt_cons n _ (c + d) (IHn _ _ F G))]. intros x. simpl. rewrite Ef, Eg. ring.
Qed.
Lemma poly_lt_scal n c f : poly_lt n f -> poly_lt n (fun x => c * f x).
Proof.
  revert f. induction n; intros f F.
  - destruct F as (d & F & Ef). destruct d; try discriminate. eapply poly_lt_ext; [|apply poly_lt_0]. intros x. rewrite Ef. simpl. ring.
  - apply poly_lt_inv in F as (d & f' & F & Ef). eapply poly_lt_ext; [|apply (poly_lt_cons n _ (c * d) (IHn _ F))]. intros x. simpl. rewrite Ef. ring.
Qed.
Lemma poly_lt_S n f : poly_lt n f -> poly_lt (S n) f.
Proof.
  revert f. induction n; intros f F.
  - destruct F as (d & F & Ef). destruct d; try discriminate. eapply poly_lt_ext; [|apply poly_lt_0]. intros x. rewrite Ef. auto.
  - apply poly_lt_inv in F as (d & f' & F & Ef). eapply poly_lt_ext; [|apply (poly_lt_cons _ _ d (IHn _ F))]. intros x. auto.
Qed.
Lemma poly_lt_le n m f : (n <= m)%nat -> poly_lt n f -> poly_lt m f.
Proof. induction 1; auto using poly_lt_S. Qed.
Lemma poly_lt_mulx n f : poly_lt n f -> poly_lt (S n) (fun x => x * f x).
Proof. intros F. eapply poly_lt_ext; [|apply (poly_lt_cons n f 0 F)]. intros x. simpl. ring. Qed.
Lemma poly_lt_lin n f c a : poly_lt n f -> poly_lt (S n) (fun x => (c * x - a) * f x).
Proof.
  intros F. eapply poly_lt_ext; [|apply (poly_lt_plus _ _ _ (poly_lt_scal _ c _ (poly_lt_mulx _ _ F)) (poly_lt_scal _ (- a) _ (poly_lt_S _ _ F)))].
  intros x. simpl. ring.
Qed.
Lemma poly_lt_sum {A} n (l : list A) (g : A -> R -> R) : (forall t, In t l -> poly_lt n (g t)) -> poly_lt n (fun x => sumR (map (fun t => g t x) l)).
Proof.
  induction l as [|t l IH]; intros H.
  - eapply poly_lt_ext; [|apply poly_lt_0]. intros x. reflexivity.
  - eapply poly_lt_ext; [|apply (poly_lt_plus n (g t) _ (H t (or_introl eq_refl)) (IH (fun u U => H u (or_intror U))))]. intros x. reflexivity.
Qed.
Lemma poly_lt_nodal l : poly_lt (S (length l)) (nodal l).
Proof.
  induction l as [|r l IH].
  - eapply poly_lt_ext; [|apply (poly_lt_const 0 1)]. reflexivity.
  - simpl length. eapply poly_lt_ext; [|apply (poly_lt_lin _ _ 1 r IH)]. intros x. unfold nodal. simpl. ring.
Qed.
Lemma poly_factor n f a : poly_lt (S n) f -> exists g, poly_lt n g /\ forall x, f x - f a = (x - a) * g x.
Proof.
  revert f. induction n; intros f F; apply poly_lt_inv in F as (c & f' & F & Ef).
  - exists (fun _ => 0). split; [apply poly_lt_0|]. intros x. rewrite !Ef. destruct F as (d & F & E'). destruct d; try discriminate. rewrite !E'. simpl. ring.
  - destruct (IHn _ F) as (g & G & Eg). exists (fun x => f' x + a * g x). split.
    + apply poly_lt_plus; auto. apply poly_lt_S, poly_lt_scal; auto.
    + intros x. rewrite !Ef. replace (f' a) with (f' x - (x - a) * g x) by (rewrite <- Eg; ring). ring.
Qed.
Lemma poly_roots n l f : poly_lt (n + length l) f -> NoDup l -> (forall r, In r l -> f r = 0) ->
  exists g, poly_lt n g /\ forall x, f x = nodal l x * g x.
Proof.
  revert f. induction l as [|r l IH]; intros f F ND HR.
  - exists f. rewrite Nat.add_0_r in F. split; auto. intros x. unfold nodal. simpl. ring.
  - simpl in F. rewrite Nat.add_succ_r in F. destruct (poly_factor _ f r F) as (g & G & Eg). inversion ND; subst.
    destruct (IH g G H2) as (h & P & Eh).
    + intros s Hs. assert (s <> r) by (intros ->; tauto). pose proof (Eg s) as E. rewrite (HR r), (HR s) in E by (simpl; auto).
      assert (Z : (s - r) * g s = 0) by lra. apply Rmult_integral in Z. destruct Z; auto. lra.
    + exists h. split; auto. intros x. pose proof (Eg x) as E. rewrite (HR r) in E by (simpl; auto). rewrite Eh in E. unfold nodal in *. simpl. lra.
Qed.
Lemma poly_unique n f g l : poly_lt n f -> poly_lt n g -> NoDup l -> length l = n -> (forall r, In r l -> f r = g r) -> forall x, f x = g x.
Proof.
  intros F G ND LE E x. destruct (poly_roots 0 l (fun x => f x + (-1) * g x)) as (h & (cs & H & K) & P); auto.
  - simpl. rewrite LE. apply poly_lt_plus; auto. apply poly_lt_scal; auto.
  - intros r Hr. rewrite E by auto. ring.
  - destruct cs; try discriminate. specialize (P x). rewrite K in P. simpl in P. lra.
Qed.
Lemma poly_full l f : poly_lt (S (length l)) f -> NoDup l -> (forall r, In r l -> f r = 0) -> exists c, forall x, f x = c * nodal l x.
Proof.
  intros F ND HR. destruct (poly_roots 1 l f F ND HR) as (g & (cs & H & K) & P). destruct cs as [|c [|]]; try discriminate.
  exists c. intros x. rewrite P, K. simpl. ring.
Qed.

(** ** Products over the other nodes *)
Lemma nodal_app l m x : nodal (l ++ m) x = nodal l x * nodal m x.
Proof. unfold nodal, prodR. induction l; simpl; [ring|]. rewrite IHl. ring. Qed.
Lemma nodal_zero l x : nodal l x = 0 <-> In x l.
Proof.
  unfold nodal, prodR. induction l; simpl; [split; [lra|tauto]|]. split.
  - intros H. apply Rmult_integral in H. destruct H; [left; lra|right; tauto].
  - intros [-> | H]; [ring|]. apply IHl in H. rewrite H. ring.
Qed.
Lemma others_nth {A} i (l : list A) d : (i < length l)%nat -> l = firstn i l ++ nth i l d :: skipn (S i) l.
Proof.
  revert i. induction l; intros i H; [simpl in H; lia|]. destruct i; simpl; auto. f_equal. apply IHl. simpl in H. lia.
Qed.
Lemma nodal_others i l x : (i < length l)%nat -> nodal l x = (x - nth i l 0) * nodal (others i l) x.
Proof.
  intros H. rewrite (others_nth i l 0) at 1 by auto. unfold others. rewrite !nodal_app. replace (nodal (nth i l 0 :: skipn (S i) l) x) with ((x - nth i l 0) * nodal (skipn (S i) l) x) by reflexivity. ring.
Qed.
Lemma others_length {A} i (l : list A) : (i < length l)%nat -> length (others i l) = (length l - 1)%nat.
Proof. intros H. unfold others. rewrite app_length, firstn_length, skipn_length. lia. Qed.
Lemma others_In {A} i j (l : list A) d : (i < length l)%nat -> (j < length l)%nat -> i <> j -> In (nth j l d) (others i l).
Proof.
  revert i j. induction l as [|x l IH]; intros i j I J N; [simpl in I; lia|]. simpl in I, J. destruct i, j; try lia.
  - change (In (nth j l d) l). apply nth_In. lia.
  - change (In x (x :: firstn i l ++ skipn (S i) l)). left. auto.
  - change (In (nth j l d) (x :: others i l)). right. apply IH; lia.
Qed.
Lemma others_notin {A} i (l : list A) d : NoDup l -> (i < length l)%nat -> ~ In (nth i l d) (others i l).
Proof.
  intros ND H. rewrite (others_nth i l d) in ND at 1 by auto. apply NoDup_remove_2 in ND. exact ND.
Qed.
Lemma over_others_eq i l step w : over_others i l step w = fold_left step (others i l) w.
Proof.
  unfold over_others. assert (G : forall l s i w, fold_left (fun w (p : nat * R) => if Nat.eqb (fst p) i then w else step w (snd p)) (combine (seq s (length l)) l) w =
    if Nat.ltb i s then fold_left step l w else fold_left step (others (i - s) l) w).
  { clear. induction l as [|x l IH]; intros s i w; simpl.
    - destruct (Nat.ltb i s); auto. unfold others. rewrite firstn_nil. reflexivity.
    - rewrite IH. destruct (Nat.eqb_spec s i) as [-> |N].
      + replace (Nat.ltb i (S i)) with true by (symmetry; apply Nat.ltb_lt; lia). replace (Nat.ltb i i) with false by (symmetry; apply Nat.ltb_ge; lia).
        replace (i - i)%nat with 0%nat by lia. reflexivity.
      + destruct (Nat.ltb_spec i s).
        * replace (Nat.ltb i (S s)) with true by (symmetry; apply Nat.ltb_lt; lia). reflexivity.
        * replace (Nat.ltb i (S s)) with false by (symmetry; apply Nat.ltb_ge; lia). replace (i - s)%nat with (S (i - S s)) by lia. reflexivity. }
  rewrite G. simpl. rewrite Nat.sub_0_r. reflexivity.
Qed.
Lemma fold_div l c w : fold_left (fun w xj => w / (c - xj)) l w = w / nodal l c.
Proof.
  revert w. unfold nodal, prodR. induction l; intros w; simpl; [field|]. rewrite IHl. unfold Rdiv. rewrite Rinv_mult. ring.
Qed.
Lemma fold_ratio l c x w : fold_left (fun w xj => w * ((x - xj) / (c - xj))) l w = w * (nodal l x / nodal l c).
Proof.
  revert w. unfold nodal, prodR. induction l; intros w; simpl; [field|]. rewrite IHl. unfold Rdiv. rewrite Rinv_mult. ring.
Qed.
Lemma fold_sum {A} (g : A -> R) l s : fold_left (fun r p => r + g p) l s = s + sumR (map g l).
Proof. revert s. induction l; intros s; simpl; [unfold sumR; simpl; ring|]. rewrite IHl. unfold sumR. simpl. ring. Qed.

(** ** Lagrange's formula *)
Definition basis (Xs : list R) (i : nat) (x : R) : R := nodal (others i Xs) x / nodal (others i Xs) (nth i Xs 0).
Definition lag (Xs Ys : list R) (x : R) : R := sumR (map (fun i => basis Xs i x * nth i Ys 0) (seq 0 (length Xs))).
Lemma combine_seq (l : list R) s : combine (seq s (length l)) l = map (fun i => (i, nth (i - s) l 0)) (seq s (length l)).
Proof.
  revert s. induction l; intros s; simpl; auto. rewrite Nat.sub_diag. f_equal. rewrite IHl. apply map_ext_in. intros i Hi. apply in_seq in Hi.
  destruct (i - s)%nat eqn:E; [lia|]. f_equal. f_equal. lia.
Qed.
Lemma lagrange_lag Xs Ys x : length Ys = length Xs -> lagrange_at Xs Ys x = lag Xs Ys x.
Proof.
  intros H. unfold lagrange_at, lag. rewrite (fold_sum (fun p => over_others (fst p) Xs (fun w xj => w * ((x - xj) / (nth (fst p) Xs 0 - xj))) 1 * snd p)).
  rewrite Rplus_0_l. rewrite <- H, combine_seq, map_map. f_equal. apply map_ext. intros i. cbn [fst snd]. rewrite Nat.sub_0_r, over_others_eq, fold_ratio. unfold basis. ring.
Qed.
Lemma basis_self Xs i : NoDup Xs -> (i < length Xs)%nat -> basis Xs i (nth i Xs 0) = 1.
Proof. intros ND H. unfold basis. apply Rinv_r. intros Z. apply nodal_zero in Z. eapply others_notin; eauto. Qed.
Lemma basis_other Xs i j : (i < length Xs)%nat -> (j < length Xs)%nat -> i <> j -> basis Xs i (nth j Xs 0) = 0.
Proof. intros I J N. unfold basis. replace (nodal (others i Xs) (nth j Xs 0)) with 0; [unfold Rdiv; ring|]. symmetry. apply nodal_zero, others_In; auto. Qed.
Lemma sum_single (g : nat -> R) n j : (j < n)%nat -> (forall i, (i < n)%nat -> i <> j -> g i = 0) -> sumR (map g (seq 0 n)) = g j.
Proof.
  intros J Z. assert (G : forall n s, (forall i, (s <= i < s + n)%nat -> i <> j -> g i = 0) -> sumR (map g (seq s n)) = if (s <=? j)%nat && (j <? s + n)%nat then g j else 0).
  { clear. induction n; intros s Z; simpl.
    - destruct (Nat.leb_spec s j), (Nat.ltb_spec j (s + 0)); simpl; auto. lia.
    - unfold sumR in *. simpl. rewrite IHn by (intros i I; apply Z; lia).
      destruct (Nat.leb_spec (S s) j), (Nat.ltb_spec j (S s + n)), (Nat.leb_spec s j), (Nat.ltb_spec j (s + S n)); simpl; try lia;
      try (rewrite (Z s) by lia; ring); try (assert (s = j) as -> by lia; ring). }
  rewrite (G n 0%nat); [|intros i I; apply Z; lia]. replace (0 <=? j)%nat with true by (symmetry; apply Nat.leb_le; lia). replace (j <? 0 + n)%nat with true by (symmetry; apply Nat.ltb_lt; lia). auto.
Qed.
Lemma lag_node Xs Ys j : NoDup Xs -> (j < length Xs)%nat -> lag Xs Ys (nth j Xs 0) = nth j Ys 0.
Proof.
  intros ND J. unfold lag. rewrite (sum_single _ _ j J); [rewrite basis_self; auto; ring|]. intros i I N. rewrite basis_other by auto. ring.
Qed.
Lemma lag_poly Xs Ys : poly_lt (length Xs) (lag Xs Ys).
Proof.
  unfold lag. apply poly_lt_sum. intros i Hi. apply in_seq in Hi. assert (I : (i < length Xs)%nat) by lia.
  pose proof (poly_lt_nodal (others i Xs)) as P. rewrite others_length in P by auto. replace (S (length Xs - 1)) with (length Xs) in P by lia.
  eapply poly_lt_ext; [|apply (poly_lt_scal _ (nth i Ys 0 / nodal (others i Xs) (nth i Xs 0)) _ P)]. intros x. unfold basis. simpl. unfold Rdiv. ring.
Qed.
Lemma through_eq Xs Ys P x : NoDup Xs -> interpolates Xs Ys P -> P x = lag Xs Ys x.
Proof.
  intros ND (HP & T). apply (poly_unique (length Xs) P (lag Xs Ys) Xs); auto using lag_poly.
  intros r Hr. apply (In_nth _ _ 0) in Hr as (j & J & <-). rewrite T, lag_node; auto.
Qed.
Lemma nth_repeat_lt (c d : R) n i : (i < n)%nat -> nth i (repeat c n) d = c.
Proof. revert i. induction n; intros i I; [lia|]. destruct i; simpl; auto. apply IHn. lia. Qed.
Lemma basis_sum Xs x : NoDup Xs -> Xs <> [] -> sumR (map (fun i => basis Xs i x) (seq 0 (length Xs))) = 1.
Proof.
  intros ND NE. transitivity (lag Xs (repeat 1 (length Xs)) x).
  - unfold lag. f_equal. apply map_ext_in. intros i Hi. apply in_seq in Hi. rewrite nth_repeat_lt by lia. ring.
  - symmetry. apply (through_eq Xs (repeat 1 (length Xs)) (fun _ => 1) x ND). split.
    + destruct Xs; [tauto|]. apply poly_lt_const.
    + intros i I. rewrite nth_repeat_lt; auto.
Qed.
Lemma nth_map_seq {A} (g : nat -> A) s n i d : (i < n)%nat -> nth i (map g (seq s n)) d = g (s + i)%nat.
Proof. revert s i. induction n; intros s i I; [lia|]. destruct i; simpl; [f_equal; lia|]. rewrite IHn by lia. f_equal. lia. Qed.
