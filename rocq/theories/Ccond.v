(** Conditional distributions of Archimedean copulas (pacal/depvars/copulas.py:494-578; the call of NDFun, nddistr.py:46-92). Real
    arithmetic; arguments are numbers, not arrays; sympy.diff is the derivative. *)
From Coq Require Import Reals List Bool Arith.
From Coquelicot Require Import Coquelicot.
From Verif Require Import Base Copula.
Import List ListNotations.
Open Scope R_scope.

(** a marginal: get_piecewise_cdf(), get_piecewise_pdf(), range() *)
Record cmarg := CM { k_cdf : R -> R; k_pdf : R -> R; k_lo : Rbar; k_hi : Rbar }.
Definition in_rng (m : cmarg) (x : R) : bool := (ble (k_lo m) (Finite x) && ble (Finite x) (k_hi m))%bool.
(** NDFun.__call__ with numbers (nddistr.py:73-82): the masks of the coordinates are joined by "or"; Vars are the marginals *)
Definition ndfun_call (ms : list cmarg) (f : list R -> R) (X : list R) : R :=
  if existsb (fun p => in_rng (fst p) (snd p)) (combine ms X) then f X else 0.

Definition flags (d : nat) (var : list nat) : list bool := map (fun i => existsb (Nat.eqb i) var) (seq 0 d).
Fixpoint upd (X : list R) (i : nat) (u : R) : list R :=
  match X, i with [], _ => [] | _ :: X', O => u :: X' | x :: X', S i' => x :: upd X' i' u end.
(** sympy.diff(DC, symVars[i]) *)
Definition diff_at (i : nat) (f : list R -> R) (X : list R) : R := Derive (fun u => f (upd X i u)) (nth i X 0).
(** ccond (copulas.py:504-516) of sym_C = C *)
Definition ccond (C : list R -> R) (d : nat) (var : list nat) : list R -> R :=
  fold_left (fun DC i => if existsb (Nat.eqb i) var then diff_at i DC else DC) (seq 0 d) C.

(** the loop that merges the conditions X and the arguments Y_ (copulas.py:525-536, 548-557): taken in the order of the variables *)
Fixpoint weave (fl : list bool) (X Y : list R) : res (list R) :=
  match fl with
  | [] => Ok []
  | true :: fl' => match X with x :: X' => rmap (cons x) (weave fl' X' Y) | [] => Err EIndex end
  | false :: fl' => match Y with y :: Y' => rmap (cons y) (weave fl' X Y') | [] => Err EIndex end
  end.
Definition cdfs (ms : list cmarg) (X : list R) : list R := map (fun p => k_cdf (fst p) (snd p)) (combine ms X).
(** fun_ of conditionCDF (copulas.py:541-558): funcond is an NDFun over the marginals *)
Definition cond_cdf_fun (C : list R -> R) (ms : list cmarg) (var : list nat) (X Y : list R) : res R :=
  rmap (fun Z => ndfun_call ms (ccond C (length ms) var) (cdfs ms Z)) (weave (flags (length ms) var) X Y).
(** the function that conditionCDF returns when one variable m is left: a PiecewiseFunction on the range of m (nddistr.py:65-68) *)
Definition cond_cdf1 (C : list R -> R) (ms : list cmarg) (var : list nat) (m : cmarg) (X : list R) (y : R) : res R :=
  if in_rng m y then cond_cdf_fun C ms var X [y] else Ok 0.
(** condfun (copulas.py:560-577) *)
Definition condfun (C : list R -> R) (ms : list cmarg) (var : list nat) : list R -> R :=
  ndfun_call ms (fun X => ndfun_call ms (ccond C (length ms) var) (cdfs ms X)).

(** sym_C (copulas.py:488-492) and cpdf (441-450) of a generator [fi] with derivative [fi'], and the derivatives [psi n] of its inverse *)
Definition arch_C (psi : nat -> R -> R) (fi : R -> R) (X : list R) : R := psi 0%nat (sumR (map fi X)).
Definition arch_c (psi : nat -> R -> R) (fi fi' : R -> R) (X : list R) : R :=
  psi (length X) (sumR (map fi X)) * fold_right (fun x p => fi' x * p) 1 X.
Definition cpairs (ms : list cmarg) : list marginal := map (fun m => (k_cdf m, k_pdf m)) ms.
(** fun_ of condition (copulas.py:518-540); den is the copula of the variables var (eliminate, 494-502) *)
Definition cond_pdf_fun (psi : nat -> R -> R) (fi fi' : R -> R) (ms : list cmarg) (var : list nat) (X Y : list R) : res R :=
  rmap (fun Z => joint_pdf (arch_c psi fi fi') (cpairs ms) Z / joint_pdf (arch_c psi fi fi') (cpairs (select (flags (length ms) var) ms)) X)
    (weave (flags (length ms) var) X Y).
