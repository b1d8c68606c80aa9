(** Model: convergence_monitor (utils.py:312-379), the stopping rule of every adaptive loop. *)
From Coq Require Import Reals List Bool Arith.
From Verif Require Import Base.
Import List ListNotations.
Open Scope R_scope.

(** the parameters read in __init__ (utils.py:314-326) *)
Record mpar := MPar { abstol : R; reltol : R; quit_iter : nat; quit_no : nat; ratio : R; force_nonzero : bool }.
Definition min_quit_iter (p : mpar) : nat := Nat.max 2 (quit_iter p).

(** ae_list, y_list and e_list are appended to together (utils.py:334-337), so one list of triples *)
Record mon (E : Type) := Mon { hist : list (R * R * E); converged : bool; no_impr : nat; last_good : nat }.
Arguments Mon {E}. Arguments hist {E}. Arguments converged {E}. Arguments no_impr {E}. Arguments last_good {E}.
Definition mon_init {E} : mon E := Mon [] false 0 0.

(** add (utils.py:334-337) *)
Definition mon_add {E} (m : mon E) (a : R * R * E) : mon E := Mon (hist m ++ [a]) (converged m) (no_impr m) (last_good m).

Inductive msg := Converged | NotConverged | Continue.
Definition e_ae {E} (t : R * R * E) : R := fst (fst t).
Definition e_y {E} (t : R * R * E) : R := snd (fst t).
(** the tolerance test (utils.py:342-343) *)
Definition tol_met (p : mpar) (ae y : R) : bool :=
  rle ae (Rmax (abstol p) (Rabs y * reltol p)) && (negb (force_nonzero p) || rlt 0 (Rabs y)).

(** test_convergence (utils.py:338-356); the message stands for the pair returned *)
Definition mon_test {E} (p : mpar) (m : mon E) : mon E * res msg :=
  match nth_error (hist m) (length (hist m) - 1) with
  | None => (m, Err EIndex)
  | Some t =>
      if tol_met p (e_ae t) (e_y t) then (Mon (hist m) true (no_impr m) (last_good m), Ok Converged)
      else match nth_error (hist m) (last_good m) with
      | None => (m, Err EIndex)
      | Some g =>
          let m' := if rlt (e_ae t) (ratio p * e_ae g)
                    then Mon (hist m) (converged m) 0 (length (hist m) - 1)
                    else Mon (hist m) (converged m) (no_impr m + 1) (last_good m) in
          (m', Ok (if (min_quit_iter p <=? length (hist m)) && (quit_no p <=? no_impr m') then NotConverged else Continue))
      end
  end.

(** get_best_result (utils.py:357-379); [big] is finfo(double).max *)
Definition rel_err (big ae y : R) : R := if req y 0 then big else ae / Rabs y.
Definition best_step {E} (big decr : R) (b t : R * R * E) : R * R * E :=
  if rlt (rel_err big (e_ae t) (e_y t)) (decr * rel_err big (e_ae b) (e_y b)) then t else b.
Definition mon_best {E} (big decr : R) (m : mon E) : res (R * R * E) :=
  if converged m then
    match nth_error (hist m) (length (hist m) - 1) with Some t => Ok t | None => Err EIndex end
  else
    match hist m with
    | [] => Err EIndex
    | t :: l => Ok (fold_left (best_step big decr) l t)
    end.

(** the way every caller uses the monitor (e.g. integration.py:133-160, interpolation.py:200-233): add, test,
    stop when told so; [att i] is what the i-th round of the caller computes, [fuel] the rounds allowed *)
Fixpoint mon_run {E} (p : mpar) (att : nat -> R * R * E) (i fuel : nat) (m : mon E) : res (mon E * msg) :=
  match fuel with
  | O => Ok (m, Continue)
  | S f =>
      match mon_test p (mon_add m (att i)) with
      | (_, Err e) => Err e
      | (m', Ok Continue) => mon_run p att (S i) f m'
      | (m', Ok r) => Ok (m', r)
      end
  end.
(** what the caller returns: the best result of the monitor after at most [fuel] rounds (integration.py:158-161) *)
Definition mon_result {E} (big decr : R) (p : mpar) (att : nat -> R * R * E) (fuel : nat) : res (R * R * E) :=
  rbind (mon_run p att 0 fuel mon_init) (fun r => mon_best big decr (fst r)).
