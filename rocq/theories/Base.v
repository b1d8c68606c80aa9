(** Common numeric helpers: decidable comparisons on R and Rbar as booleans. *)
From Coq Require Import Reals Lra Lia List Bool.
From Coquelicot Require Import Coquelicot.
Import List ListNotations.
Open Scope R_scope.

(** Python float comparisons.  Floats are idealised as reals, +-inf as the two
    infinite elements of Rbar; NaN is not modelled. *)
Definition rlt (x y : R) : bool := if Rlt_dec x y then true else false.
Definition rle (x y : R) : bool := if Rle_dec x y then true else false.
Definition req (x y : R) : bool := if Req_EM_T x y then true else false.

Definition blt (x y : Rbar) : bool := if Rbar_lt_dec x y then true else false.
Definition ble (x y : Rbar) : bool := if Rbar_le_dec x y then true else false.
Definition beq (x y : Rbar) : bool := if Rbar_eq_dec x y then true else false.

Lemma rltP x y : reflect (x < y) (rlt x y).
Proof. unfold rlt; destruct (Rlt_dec x y); constructor; auto. Qed.
Lemma rleP x y : reflect (x <= y) (rle x y).
Proof. unfold rle; destruct (Rle_dec x y); constructor; auto. Qed.
Lemma reqP x y : reflect (x = y) (req x y).
Proof. unfold req; destruct (Req_EM_T x y); constructor; auto. Qed.
Lemma bltP x y : reflect (Rbar_lt x y) (blt x y).
Proof. unfold blt; destruct (Rbar_lt_dec x y); constructor; auto. Qed.
Lemma bleP x y : reflect (Rbar_le x y) (ble x y).
Proof. unfold ble; destruct (Rbar_le_dec x y); constructor; auto. Qed.
Lemma beqP x y : reflect (x = y) (beq x y).
Proof. unfold beq; destruct (Rbar_eq_dec x y); constructor; auto. Qed.

Lemma rlt_true x y : rlt x y = true <-> x < y.
Proof. destruct (rltP x y); split; intros; auto; discriminate. Qed.
Lemma rlt_false x y : rlt x y = false <-> y <= x.
Proof. destruct (rltP x y); split; intros; auto; try discriminate; lra. Qed.
Lemma rle_true x y : rle x y = true <-> x <= y.
Proof. destruct (rleP x y); split; intros; auto; discriminate. Qed.
Lemma rle_false x y : rle x y = false <-> y < x.
Proof. destruct (rleP x y); split; intros; auto; try discriminate; lra. Qed.
Lemma req_true x y : req x y = true <-> x = y.
Proof. destruct (reqP x y); split; intros; auto; discriminate. Qed.
Lemma req_false x y : req x y = false <-> x <> y.
Proof. destruct (reqP x y); split; intros; auto; try discriminate; tauto. Qed.
Lemma req_refl x : req x x = true.
Proof. apply req_true; reflexivity. Qed.

Lemma Rbar_not_lt x y : ~ Rbar_lt x y <-> Rbar_le y x.
Proof.
  split.
  - apply Rbar_not_lt_le.
  - intros H1 H2. apply (Rbar_le_not_lt _ _ H1 H2).
Qed.
Lemma Rbar_not_le x y : ~ Rbar_le x y <-> Rbar_lt y x.
Proof.
  split.
  - apply Rbar_not_le_lt.
  - intros H1 H2. apply (Rbar_lt_not_le _ _ H1 H2).
Qed.

Lemma blt_true x y : blt x y = true <-> Rbar_lt x y.
Proof. destruct (bltP x y); split; intros; auto; discriminate. Qed.
Lemma blt_false x y : blt x y = false <-> Rbar_le y x.
Proof. rewrite <- Rbar_not_lt. destruct (bltP x y); split; intros; auto; try discriminate; tauto. Qed.
Lemma ble_true x y : ble x y = true <-> Rbar_le x y.
Proof. destruct (bleP x y); split; intros; auto; discriminate. Qed.
Lemma ble_false x y : ble x y = false <-> Rbar_lt y x.
Proof. rewrite <- Rbar_not_le. destruct (bleP x y); split; intros; auto; try discriminate; tauto. Qed.
Lemma beq_true x y : beq x y = true <-> x = y.
Proof. destruct (beqP x y); split; intros; auto; discriminate. Qed.
Lemma beq_false x y : beq x y = false <-> x <> y.
Proof. destruct (beqP x y); split; intros; auto; try discriminate; tauto. Qed.
Lemma beq_refl x : beq x x = true.
Proof. apply beq_true; reflexivity. Qed.

Lemma Rbar_lt_irrefl x : ~ Rbar_lt x x.
Proof. destruct x; simpl; intro; auto; lra. Qed.

(** Decide small goals about the order of Rbar by splitting every Rbar variable. *)
Ltac rb_inj :=
  repeat match goal with
  | H : Finite _ = Finite _ |- _ => injection H; clear H; intro H
  | H : Finite _ = p_infty |- _ => discriminate H
  | H : Finite _ = m_infty |- _ => discriminate H
  | H : p_infty = Finite _ |- _ => discriminate H
  | H : m_infty = Finite _ |- _ => discriminate H
  | H : p_infty = m_infty |- _ => discriminate H
  | H : m_infty = p_infty |- _ => discriminate H
  end.
Ltac rb :=
  repeat match goal with x : Rbar |- _ => destruct x end;
  simpl in *; intros; rb_inj; subst; try tauto; try lra; try congruence;
  try (f_equal; lra).

(** Turn boolean comparison facts into propositions. *)
Ltac b2p :=
  repeat match goal with
  | H : rlt _ _ = true |- _ => apply rlt_true in H
  | H : rlt _ _ = false |- _ => apply rlt_false in H
  | H : rle _ _ = true |- _ => apply rle_true in H
  | H : rle _ _ = false |- _ => apply rle_false in H
  | H : req _ _ = true |- _ => apply req_true in H
  | H : req _ _ = false |- _ => apply req_false in H
  | H : blt _ _ = true |- _ => apply blt_true in H
  | H : blt _ _ = false |- _ => apply blt_false in H
  | H : ble _ _ = true |- _ => apply ble_true in H
  | H : ble _ _ = false |- _ => apply ble_false in H
  | H : beq _ _ = true |- _ => apply beq_true in H
  | H : beq _ _ = false |- _ => apply beq_false in H
  | H : (_ && _)%bool = true |- _ => apply andb_true_iff in H; destruct H
  | H : (_ && _)%bool = false |- _ => apply andb_false_iff in H
  | H : (_ || _)%bool = true |- _ => apply orb_true_iff in H
  | H : (_ || _)%bool = false |- _ => apply orb_false_iff in H; destruct H
  | H : negb _ = true |- _ => apply negb_true_iff in H
  | H : negb _ = false |- _ => apply negb_false_iff in H
  end.

(** Case split on every comparison occurring in the goal. *)
Ltac bcase :=
  repeat match goal with
  | |- context [rlt ?x ?y] => let E := fresh "E" in destruct (rlt x y) eqn:E
  | |- context [rle ?x ?y] => let E := fresh "E" in destruct (rle x y) eqn:E
  | |- context [req ?x ?y] => let E := fresh "E" in destruct (req x y) eqn:E
  | |- context [blt ?x ?y] => let E := fresh "E" in destruct (blt x y) eqn:E
  | |- context [ble ?x ?y] => let E := fresh "E" in destruct (ble x y) eqn:E
  | |- context [beq ?x ?y] => let E := fresh "E" in destruct (beq x y) eqn:E
  end; b2p.

(** Finite sums over lists. *)
Definition sumR (l : list R) : R := fold_right Rplus 0 l.

Lemma sumR_app l1 l2 : sumR (l1 ++ l2) = sumR l1 + sumR l2.
Proof. induction l1; simpl; try rewrite IHl1; lra. Qed.

Lemma sumR_ext {A} (f g : A -> R) l :
  (forall x, In x l -> f x = g x) -> sumR (map f l) = sumR (map g l).
Proof.
  induction l as [|x l IH]; simpl; intros H; auto.
  rewrite (H x), IH; auto.
Qed.

Lemma sumR_scal {A} (c : R) (f : A -> R) l :
  sumR (map (fun x => c * f x) l) = c * sumR (map f l).
Proof. induction l; simpl; try rewrite IHl; lra. Qed.

Lemma sumR_plus {A} (f g : A -> R) l :
  sumR (map (fun x => f x + g x) l) = sumR (map f l) + sumR (map g l).
Proof. induction l; simpl; try rewrite IHl; lra. Qed.

Lemma sumR_nonneg l : (forall x, In x l -> 0 <= x) -> 0 <= sumR l.
Proof.
  induction l; simpl; intros H; try lra.
  assert (0 <= a) by auto. assert (0 <= sumR l) by auto. lra.
Qed.

Lemma sumR_swap {A B} (f : A -> B -> R) la lb :
  sumR (map (fun x => sumR (map (f x) lb)) la) =
  sumR (map (fun y => sumR (map (fun x => f x y) la)) lb).
Proof.
  induction la; simpl.
  - induction lb; simpl; auto. rewrite <- IHlb; lra.
  - rewrite IHla, <- sumR_plus. reflexivity.
Qed.

(** Exceptions as values. *)
Inductive err :=
| EAssert      (* AssertionError *)
| EIndex       (* IndexError *)
| EType        (* TypeError / AttributeError *)
| EValue       (* ValueError *)
| EZeroDiv     (* ZeroDivisionError *)
| ENone        (* a path returning Python's None where a value is used *)
| ERuntime     (* RuntimeError *)
| EName        (* NameError / UnboundLocalError *)
| EKey         (* KeyError *)
| EMInfAtom    (* an atom placed at -inf: a state the model does not represent *)
| EFuel.       (* a loop not finished within the rounds allowed: no claim about the code *)

Inductive res (A : Type) := Ok (a : A) | Err (e : err).
Arguments Ok {A} a.
Arguments Err {A} e.

Definition rbind {A B} (r : res A) (k : A -> res B) : res B :=
  match r with Ok a => k a | Err e => Err e end.
Definition rmap {A B} (k : A -> B) (r : res A) : res B :=
  match r with Ok a => Ok (k a) | Err e => Err e end.

(** split conjunctions only (unlike [repeat split], never introduces) *)
Ltac splits := repeat match goal with |- _ /\ _ => split end.
