(** Property theorems (Iid). Proofs are in IidMain.v and the files it imports. *)
From Coq Require Import Reals ZArith Lra Lia List Arith.
From Verif Require Import Base Iid IidSpec.
From Verif Require Import IidMain.
Import List ListNotations.
Open Scope R_scope.

(** C39: the result is a bracketed combination of exactly n copies of X, computed with the dependence
    warning off, for every operation, also one that may raise; the flag is restored when nothing is raised. *)
Theorem iid_copies :
  forall (A : Type) (op : bool -> A -> A -> res A) flag x n, (0 < n)%N ->
  exists t, leaves t = N.to_nat n /\
    snd (iid_op A op flag x n) = rmap Some (eval (op false) x t) /\
    (forall y, snd (iid_op A op flag x n) = Ok y -> fst (iid_op A op flag x n) = flag).
Proof. exact iid_copies_main. Qed.
Print Assumptions iid_copies.

(** C39: for an associative operation that is the n-fold combination. *)
Theorem iid_value :
  forall (A : Type) (m : A -> A -> A) flag x n, (forall a b c, m (m a b) c = m a (m b c)) -> (0 < n)%N ->
  iid_op A (fun _ a b => Ok (m a b)) flag x n = (flag, Ok (Some (nfold m x (N.to_nat n - 1)))).
Proof. exact iid_value_main. Qed.
Print Assumptions iid_value.

(** C39: n = 0 gives None, without an error. *)
Theorem iid_zero :
  forall (A : Type) (op : bool -> A -> A -> res A) flag x, iid_op A op flag x 0 = (flag, Ok None).
Proof. exact iid_zero_main. Qed.
Print Assumptions iid_zero.

(** C39: the "all" variant lists, for i = 1..n, a combination of exactly i copies. *)
Theorem iid_all_copies :
  forall (A : Type) (op : bool -> A -> A -> res A) flag x n l, (1 <= n)%nat -> snd (iid_op_all A op flag x n) = Ok l ->
  fst (iid_op_all A op flag x n) = flag /\ length l = n /\
  forall i v, nth_error l i = Some v -> exists t, leaves t = S i /\ eval (op false) x t = Ok v.
Proof. exact iid_all_copies_main. Qed.
Print Assumptions iid_all_copies.

(** C39: for an associative operation that never raises the list is X, X+X, ..., the n-fold combination. *)
Theorem iid_all_value :
  forall (A : Type) (m : A -> A -> A) flag x n, (forall a b c, m (m a b) c = m a (m b c)) -> (1 <= n)%nat ->
  iid_op_all A (fun _ a b => Ok (m a b)) flag x n = (flag, Ok (map (nfold m x) (seq 0 n))).
Proof. exact iid_all_value_main. Qed.
Print Assumptions iid_all_value.

(** C39 (finding): when the operation raises, the dependence warning stays switched off. *)
Theorem iid_flag_refuted :
  exists (A : Type) (op : bool -> A -> A -> res A) x n e, iid_op A op true x n = (false, Err e).
Proof. exact iid_flag_refuted_main. Qed.
Print Assumptions iid_flag_refuted.

(** C39: averages: entry i of the "all" list is the (i+1)-fold sum divided by i+1. *)
Theorem iid_average_all_value :
  forall (A : Type) (m : A -> A -> A) divn flag x n, (forall a b c, m (m a b) c = m a (m b c)) -> (1 <= n)%nat ->
  iid_average_all A (fun _ a b => Ok (m a b)) divn flag x n = (flag, Ok (map (fun i => divn (nfold m x i) (i + 1)%nat) (seq 0 n))).
Proof. exact iid_average_all_value_main. Qed.
Print Assumptions iid_average_all_value.

(** C39 (finding): the geometric averages in the "all" list take the n-th root of every entry, so only the
    last one is an average: for X = 2 (n = 2) the first entry is not 2. *)
Theorem iid_average_geom_all_refuted :
  exists l v, iid_average_geom_all R (fun _ a b => Ok (a * b)) (fun a k => Rpower a (1 / INR k)) true 2 2 = (true, Ok l) /\
    nth_error l 0 = Some v /\ v <> Rpower (nfold Rmult 2 0) (1 / INR 1).
Proof. exact iid_average_geom_all_refuted_main. Qed.
Print Assumptions iid_average_geom_all_refuted.
