(** Binary search returns the border of any partitioned list. *)
From Coq Require Import List Arith Lia Bool.
From Verif Require Import Bisect.
Import ListNotations.

Section Facts.
Context {A : Type}.

(** The list splits into a prefix satisfying [p] and a rest refuting it. *)
Definition partitioned (p : A -> bool) (l : list A) (k : nat) : Prop :=
  k <= length l /\
  (forall i s, nth_error l i = Some s -> (i < k <-> p s = true)).

Lemma div2_between lo hi : lo < hi -> lo <= Nat.div2 (lo + hi) < hi.
Proof.
  intros H. rewrite Nat.div2_div. split.
  - apply Nat.div_le_lower_bound; lia.
  - apply Nat.div_lt_upper_bound; lia.
Qed.

Lemma bisect_loop_spec p l k :
  partitioned p l k ->
  forall fuel lo hi, lo <= k <= hi -> hi <= length l -> hi - lo < fuel ->
  bisect_loop p l fuel lo hi = k.
Proof.
  intros [Hk Hp]; induction fuel as [|fuel IH]; intros lo hi Hlk Hhi Hf; [lia|].
  simpl. destruct (Nat.ltb_spec lo hi) as [Hlt|Hge]; [|lia].
  destruct (div2_between lo hi Hlt) as [H1 H2].
  destruct (nth_error l (Nat.div2 (lo + hi))) as [s|] eqn:E.
  - specialize (Hp _ _ E). destruct (p s) eqn:Ep.
    + assert (Nat.div2 (lo + hi) < k) by (apply Hp; reflexivity).
      apply IH; lia.
    + assert (~ (Nat.div2 (lo + hi) < k)) by (intros C; apply Hp in C; discriminate).
      apply IH; lia.
  - apply nth_error_None in E. lia.
Qed.

Lemma bisect_left_spec lt l (x : A) k :
  partitioned (fun s => lt s x) l k -> bisect_left lt l x = k.
Proof.
  intros H. unfold bisect_left. destruct H as [H1 H2].
  apply bisect_loop_spec; try (split; assumption); lia.
Qed.

Lemma bisect_right_spec lt l (x : A) k :
  partitioned (fun s => negb (lt x s)) l k -> bisect_right lt l x = k.
Proof.
  intros H. unfold bisect_right. destruct H as [H1 H2].
  apply bisect_loop_spec; try (split; assumption); lia.
Qed.

(** A list of the form [l1 ++ l2] is partitioned at [length l1]. *)
Lemma partitioned_app p (l1 l2 : list A) :
  Forall (fun s => p s = true) l1 -> Forall (fun s => p s = false) l2 ->
  partitioned p (l1 ++ l2) (length l1).
Proof.
  intros H1 H2; split.
  - rewrite app_length; lia.
  - intros i s E. rewrite Forall_forall in H1, H2.
    destruct (Nat.lt_ge_cases i (length l1)) as [Hi|Hi].
    + rewrite nth_error_app1 in E by lia. apply nth_error_In in E.
      split; auto.
    + rewrite nth_error_app2 in E by lia. apply nth_error_In in E.
      rewrite (H2 _ E). split; [lia|discriminate].
Qed.

Lemma list_insert_app (l1 l2 : list A) x :
  list_insert (length l1) x (l1 ++ l2) = l1 ++ x :: l2.
Proof. induction l1; simpl; [destruct l2; reflexivity|]. now rewrite IHl1. Qed.

(** Whatever the comparison, the loop returns an index within the list. *)
Lemma bisect_loop_bound p (l : list A) fuel lo hi :
  lo <= hi <= length l -> lo <= bisect_loop p l fuel lo hi <= hi.
Proof.
  revert lo hi; induction fuel as [|fuel IH]; intros lo hi H; simpl; [lia|].
  destruct (Nat.ltb_spec lo hi) as [Hlt|Hge]; [|lia].
  destruct (div2_between lo hi Hlt) as [H1 H2].
  destruct (nth_error l (Nat.div2 (lo + hi))) as [s|]; [|lia].
  destruct (p s).
  - specialize (IH (S (Nat.div2 (lo + hi))) hi). lia.
  - specialize (IH lo (Nat.div2 (lo + hi))). lia.
Qed.

Lemma bisect_right_bound lt (l : list A) x : bisect_right lt l x <= length l.
Proof. unfold bisect_right. apply bisect_loop_bound; lia. Qed.
Lemma bisect_left_bound lt (l : list A) x : bisect_left lt l x <= length l.
Proof. unfold bisect_left. apply bisect_loop_bound; lia. Qed.

Lemma list_insert_split i x (l : list A) :
  i <= length l -> exists l1 l2, l = l1 ++ l2 /\ length l1 = i /\ list_insert i x l = l1 ++ x :: l2.
Proof.
  revert l; induction i as [|i IH]; intros l H.
  - exists [], l. destruct l; auto.
  - destruct l as [|y l]; simpl in H; [lia|].
    destruct (IH l) as (l1 & l2 & E1 & E2 & E3); [lia|].
    exists (y :: l1), l2. subst l. simpl. rewrite E3. simpl. auto.
Qed.

Lemma insort_split lt (l : list A) x :
  exists l1 l2, l = l1 ++ l2 /\ insort lt l x = l1 ++ x :: l2.
Proof.
  unfold insort. destruct (list_insert_split (bisect_right lt l x) x l) as (l1 & l2 & H).
  - apply bisect_right_bound.
  - exists l1, l2; tauto.
Qed.

End Facts.
