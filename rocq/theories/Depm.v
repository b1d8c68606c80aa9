(** Measures of dependence of a copula with marginals (pacal/depvars/copulas.py:195-290, 438-439) and the covariance of a joint
    density (pacal/depvars/nddistr.py:347-369).  Integration is exact and over open intervals; a copula is given by its
    distribution function and density, as functions of a list of arguments of any length; nan_to_num has no effect. *)
From Coq Require Import Reals List Bool Arith.
From Coquelicot Require Import Coquelicot.
From Verif Require Import Base Integral Copula.
Import List ListNotations.
Open Scope R_scope.

(** integrate_iter (integration.py:325-335): the inner integral is over the first variable *)
Definition integrate_iter (f : R -> R -> R) (a1 b1 a2 b2 : R) : R := Q (fun y => Q (fun x => f x y) a1 b1) a2 b2.

(** a marginal distribution: cdf, pdf, range(), mean(), std() *)
Record dmarg := DM { m_cdf : R -> R; m_pdf : R -> R; m_lo : R; m_hi : R; m_mean : R; m_std : R }.
(** a copula object; [c_arch] says that it is an ArchimedeanSymbolicCopula *)
Record cop := Cop { c_arch : bool; c_ccdf : list R -> R; c_cpdf : list R -> R; c_margs : list dmarg }.
Definition pairs_of (ms : list dmarg) : list marginal := map (fun m => (m_cdf m, m_pdf m)) ms.
(** Copula.pdf, Copula.cdf (copulas.py:58-78) *)
Definition c_pdf (c : cop) : list R -> R := joint_pdf (c_cpdf c) (pairs_of (c_margs c)).
Definition c_cdf (c : cop) : list R -> R := joint_cdf (c_ccdf c) (pairs_of (c_margs c)).

(** c_var of prepare_var([i, j]) (nddistr.py:106-113) *)
Definition other_vars (d i j : nat) : list nat := filter (fun k => negb (Nat.eqb k i || Nat.eqb k j)) (seq 0 d).
(** eliminate: ArchimedeanSymbolicCopula (copulas.py:494-502); the joint distribution that NDDistr.eliminate (nddistr.py:127)
    returns for the other classes, unless there is nothing to eliminate, has no attribute marginals *)
Definition cop_eliminate (c : cop) (var : list nat) : res cop :=
  match var with
  | [] => Ok c
  | _ => if c_arch c
         then Ok (Cop true (c_ccdf c) (c_cpdf c) (select (map (fun k => negb (existsb (Nat.eqb k) var)) (seq 0 (length (c_margs c)))) (c_margs c)))
         else Err EType
  end.
Definition get_marg (ms : list dmarg) (i : nat) : res dmarg := match nth_error ms i with Some m => Ok m | None => Err EIndex end.

(** f, g = dij.marginals[0], self.marginals[1] (copulas.py:199, 220, 234) *)
Definition dep_vars (c : cop) (i j : nat) : res (cop * dmarg * dmarg) :=
  rbind (cop_eliminate c (other_vars (length (c_margs c)) i j)) (fun dij =>
  rbind (get_marg (c_margs dij) 0) (fun f => rbind (get_marg (c_margs c) 1) (fun g => Ok (dij, f, g)))).
(** Copula.cov (copulas.py:195-209) *)
Definition cop_cov (c : cop) (i j : nat) : res R :=
  rmap (fun p => let '(dij, f, g) := p in
    if Nat.eqb i j then Q (fun x => (x - m_mean f) ^ 2 * m_pdf f x) (m_lo f) (m_hi f)
    else integrate_iter (fun x y => (x - m_mean f) * (y - m_mean g) * c_pdf dij [x; y]) (m_lo f) (m_hi f) (m_lo g) (m_hi g))
  (dep_vars c i j).
(** Copula.corrcoef (copulas.py:216-221) *)
Definition cop_corrcoef (c : cop) (i j : nat) : res R :=
  rbind (dep_vars c i j) (fun p => let '(_, f, g) := p in rmap (fun v => v / m_std f / m_std g) (cop_cov c i j)).
(** Copula.tau (copulas.py:228-242) *)
Definition cop_tau (c : cop) (i j : nat) : res R :=
  rmap (fun p => let '(dij, f, g) := p in
    if Nat.eqb i j then 1
    else 4 * integrate_iter (fun x y => c_cdf dij [x; y] * c_pdf dij [x; y]) (m_lo f) (m_hi f) (m_lo g) (m_hi g) - 1)
  (dep_vars c i j).
(** Copula.rho_s (copulas.py:253-266) *)
Definition cop_rho_s (c : cop) (i j : nat) : res R :=
  rmap (fun dij => if Nat.eqb i j then 1 else 12 * integrate_iter (fun x y => c_ccdf dij [x; y]) 0 1 0 1 - 3)
  (cop_eliminate c (other_vars (length (c_margs c)) i j)).
(** Copula.ctau (copulas.py:273-286) *)
Definition cop_ctau (c : cop) (i j : nat) : res R :=
  rmap (fun dij => if Nat.eqb i j then 1 else 4 * integrate_iter (fun x y => c_ccdf dij [x; y] * c_cpdf dij [x; y]) 0 1 0 1 - 1)
  (cop_eliminate c (other_vars (length (c_margs c)) i j)).
(** ArchimedeanCopula.tau_c (copulas.py:438-439) *)
Definition tau_c (fi fi_deriv : R -> R) : R := 1 + 4 * Q (fun t => fi t / fi_deriv t) 0 1.

(** NDDistr.cov (nddistr.py:347-361) of two variables with ranges [f0,f1], [g0,g1] and joint density h *)
Definition nd_cov (h : R -> R -> R) (f0 f1 g0 g1 : R) (i j : nat) : R :=
  if Nat.eqb i j then 1 else integrate_iter (fun x y => (x - 0) * (y - 0) * h x y) f0 f1 g0 g1.
