(** Property theorems (Conv). Proofs are in ConvMain.v and the files it imports. *)
From Coq Require Import Reals Lra Lia List Arith Bool.
From Verif Require Import Base Conv ConvSpec.
From Verif Require Import ConvMain.
Import List ListNotations.
Open Scope R_scope.

(** C38: the result returned is one of the results reported, with its own error and extra data. *)
Theorem best_reported :
  forall (E : Type) big decr (m : mon E), (hist m <> [] -> exists r, mon_best big decr m = Ok r) /\
  (hist m = [] -> mon_best big decr m = Err EIndex) /\
  (forall r, mon_best big decr m = Ok r -> In r (hist m)).
Proof. exact best_reported_main. Qed.
Print Assumptions best_reported.

(** C38: unless the last attempt met the tolerance, no reported result is better by more than the factor err_decr. *)
Theorem best_near_optimal :
  forall (E : Type) big decr (m : mon E) r, 0 <= big -> 0 <= decr <= 1 -> (forall t, In t (hist m) -> 0 <= e_ae t) ->
  converged m = false -> mon_best big decr m = Ok r ->
  forall t, In t (hist m) -> decr * relative big (e_ae r) (e_y r) <= relative big (e_ae t) (e_y t).
Proof. exact best_near_optimal_main. Qed.
Print Assumptions best_near_optimal.

(** C38: the monitor stops at the first round whose attempt meets the tolerance (reported as converged) or at
    which the sequence has stalled (reported as not converged), and at no other. *)
Theorem monitor_stops :
  forall (E : Type) p (att : nat -> R * R * E) fuel, 0 <= ratio p <= 1 -> (forall i, 0 <= e_ae (att i)) ->
  let good := within (abstol p) (reltol p) (force_nonzero p = true) (fun i => e_ae (att i)) (fun i => e_y (att i)) in
  let stop := stalled (ratio p) (fun i => e_ae (att i)) (Nat.max 2 (quit_iter p)) (quit_no p) in
  exists m r n, mon_run p att 0 fuel mon_init = Ok (m, r) /\ hist m = map att (seq 0 n) /\ (n <= fuel)%nat /\
    (forall j, (1 <= j < n)%nat -> ~ good (j - 1)%nat /\ ~ stop j) /\
    match r with
    | Converged => (1 <= n)%nat /\ good (n - 1)%nat
    | NotConverged => (1 <= n)%nat /\ ~ good (n - 1)%nat /\ stop n
    | Continue => n = fuel /\ ((1 <= n)%nat -> ~ good (n - 1)%nat /\ ~ stop n)
    end.
Proof. exact monitor_stops_main. Qed.
Print Assumptions monitor_stops.

(** C38: what the caller returns: the last attempt when it met the tolerance, otherwise an attempt such that no
    other is better by more than the factor err_decr. *)
Theorem monitor_result :
  forall (E : Type) big decr p (att : nat -> R * R * E) fuel, 0 <= ratio p <= 1 -> (forall i, 0 <= e_ae (att i)) ->
  0 <= big -> 0 <= decr <= 1 -> (1 <= fuel)%nat ->
  let good := within (abstol p) (reltol p) (force_nonzero p = true) (fun i => e_ae (att i)) (fun i => e_y (att i)) in
  exists k n, mon_result big decr p att fuel = Ok (att k) /\ (k < n <= fuel)%nat /\
    ((exists j, (j < n)%nat /\ good j) -> good k /\ forall j, (j < k)%nat -> ~ good j) /\
    (good k \/ forall j, (j < n)%nat -> decr * relative big (e_ae (att k)) (e_y (att k)) <= relative big (e_ae (att j)) (e_y (att j))).
Proof. exact monitor_result_main. Qed.
Print Assumptions monitor_result.

(** C38: the adaptive loop always ends: with a positive absolute tolerance and an improvement factor below one,
    every infinite sequence of attempts is cut off after finitely many rounds. *)
Theorem monitor_terminates :
  forall (E : Type) p (att : nat -> R * R * E), 0 <= ratio p < 1 -> 0 < abstol p -> force_nonzero p = false ->
  (forall i, 0 <= e_ae (att i)) ->
  exists n, forall fuel, (n <= fuel)%nat -> exists m r, mon_run p att 0 fuel mon_init = Ok (m, r) /\ r <> Continue.
Proof. exact monitor_terminates_main. Qed.
Print Assumptions monitor_terminates.
