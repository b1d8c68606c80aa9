(** Copulas (pacal/depvars/copulas.py).  A value is an extended real or NaN ([None]); numpy's conventions for 0
    and infinity in powers, logarithms and exponentials are written out.  Marginals enter through their
    distribution functions and densities.  Plots, the copula-specific convolutions and the numerical integrals of
    cov, tau, rho are not modelled here. *)
From Coq Require Import Reals List Bool Arith ZArith.
From Coquelicot Require Import Coquelicot.
From Verif Require Import Base.
Import List ListNotations.
Open Scope R_scope.

(** ** numpy scalar functions on extended reals *)
(** x ** y for a finite exponent *)
Definition npow (x : Rbar) (y : R) : option Rbar :=
  match x with
  | p_infty => Some (if rlt 0 y then p_infty else if req y 0 then Finite 1 else Finite 0)
  | m_infty => None
  | Finite x =>
      if rlt 0 x then Some (Finite (Rpower x y))
      else if req x 0 then Some (if rlt 0 y then Finite 0 else if req y 0 then Finite 1 else p_infty)
      else if req (IZR (Int_part y)) y then Some (Finite (powerRZ x (Int_part y))) else None
  end.
(** log *)
Definition nlog (x : Rbar) : option Rbar :=
  match x with
  | p_infty => Some p_infty
  | m_infty => None
  | Finite x => if rlt 0 x then Some (Finite (ln x)) else if req x 0 then Some m_infty else None
  end.
(** exp *)
Definition nexp (x : Rbar) : Rbar :=
  match x with p_infty => p_infty | m_infty => Finite 0 | Finite x => Finite (exp x) end.
Definition obind {A B} (x : option A) (f : A -> option B) : option B := match x with Some a => f a | None => None end.
Definition omap {A B} (f : A -> B) (x : option A) : option B := match x with Some a => Some (f a) | None => None end.
(** x + y, NaN for opposite infinities *)
Definition nadd (x y : Rbar) : option Rbar := Rbar_plus' x y.

(** ** Elementary copulas; an argument is an array of points, a scalar is an array of one point *)
Definition ccdf_result := res (list R).
Definition zipR (f : R -> R -> R) (a b : list R) : list R := map (fun p => f (fst p) (snd p)) (combine a b).
(** PiCopula.ccdf (copulas.py:297-301) *)
Definition pi_ccdf (X : list (list R)) : res (list R) :=
  match X with [] => Err EIndex | x0 :: _ => Ok (fold_left (zipR Rmult) X (map (fun _ => 1) x0)) end.
(** MCopula.ccdf (copulas.py:308-317); `isscalar(mi) | size(mi)==1` holds for a scalar and for one point *)
Definition m_ccdf (X : list (list R)) : res (list R) :=
  match X with
  | [] => Err EIndex
  | x0 :: _ =>
      Ok (fold_left (fun mi xi => if Nat.eqb (length mi) 1 then xi else zipR (fun m x => if rlt x m then x else m) mi xi)
                    X (map (fun _ => 0 + 1) x0))
  end.
(** WCopula.ccdf (copulas.py:383-394) *)
Definition w_ccdf (X : list (list R)) : res (list R) :=
  match X with
  | [] => Err EIndex
  | x0 :: _ => let si := map (fun s => s - 1) (fold_left (zipR Rplus) X (map (fun _ => 0) x0)) in
               Ok (map (fun s => if rlt s 0 then 0 else s) si)
  end.

(** ** Archimedean copulas *)
Fixpoint fi_sum (fi : R -> option Rbar) (acc : Rbar) (X : list R) : option Rbar :=
  match X with [] => Some acc | x :: X' => obind (fi x) (fun p => obind (nadd acc p) (fun s => fi_sum fi s X')) end.
(** ArchimedeanCopula.ccdf (copulas.py:451-460) *)
Definition archim_ccdf (fi : R -> option Rbar) (fi_inv : Rbar -> option Rbar) (d : nat) (X : list R) : res (option Rbar) :=
  if Nat.eqb (length X) d
  then Ok (obind (fi_sum fi (Finite 0) X) (fun si => fi_inv (if blt si (Finite 0) then Finite 0 else si)))
  else Err EAssert.
(** ArchimedeanCopula.cpdf (copulas.py:441-450) *)
Definition archim_cpdf (fi fi_deriv : R -> R) (fi_inv_nth_deriv : R -> R) (d : nat) (X : list R) : res R :=
  if Nat.eqb (length X) d
  then Ok (fi_inv_nth_deriv (fold_left (fun s x => s + fi x) X 0) * fold_left (fun p x => p * fi_deriv x) X 1)
  else Err EAssert.

(** GumbelCopula.fi_, fi_inv_ (copulas.py:632-635) *)
Definition gumbel_fi (th : R) (t : R) : option Rbar := obind (nlog (Finite t)) (fun l => npow (Rbar_opp l) th).
Definition gumbel_fi_inv (th : R) (s : Rbar) : option Rbar := omap (fun p => nexp (Rbar_opp p)) (npow s (1 / th)).
Definition gumbel (th : R) := archim_ccdf (gumbel_fi th) (gumbel_fi_inv th).
(** ClaytonCopula.fi_, fi_inv_ (copulas.py:647-651) *)
Definition clayton_fi (th : R) (t : R) : option Rbar :=
  omap (fun p => Rbar_mult (Finite (1 / th)) (Rbar_minus p (Finite 1))) (npow (Finite t) (- th)).
Definition clayton_fi_inv (th : R) (s : Rbar) : option Rbar :=
  npow (Rbar_plus (Finite 1) (Rbar_mult s (Finite th))) (- 1 / th).
Definition clayton (th : R) := archim_ccdf (clayton_fi th) (clayton_fi_inv th).
(** FrankCopula.fi_, fi_inv_ (copulas.py:682-687) *)
Definition frank_fi (th : R) (t : R) : option Rbar :=
  omap Rbar_opp (nlog (Finite ((exp (- t * th) - 1) / (exp (- th) - 1)))).
Definition frank_fi_inv (th : R) (s : Rbar) : option Rbar :=
  let e1 := match s with Finite s => exp (- s - th) | p_infty => 0 | m_infty => 0 end in
  let e2 := match s with Finite s => exp (- s) | p_infty => 0 | m_infty => 0 end in
  omap (fun l => Rbar_mult (Rbar_opp l) (Finite (/ th))) (nlog (Finite (e1 - e2 + 1))).
Definition frank (th : R) := archim_ccdf (frank_fi th) (frank_fi_inv th).

(** ArchimedeanSymbolicCopula.eliminate (copulas.py:494-502): the copula of the remaining marginals; [keep] says
    which coordinates remain (c_var of prepare_var, in ascending order) *)
Fixpoint select {A} (keep : list bool) (X : list A) : list A :=
  match keep, X with k :: keep', x :: X' => if k then x :: select keep' X' else select keep' X' | _, _ => [] end.
Definition archim_eliminate (fi : R -> option Rbar) (fi_inv : Rbar -> option Rbar) (keep : list bool) : list R -> res (option Rbar) :=
  archim_ccdf fi fi_inv (length (filter (fun b => b) keep)).

(** GumbelCopula2d (copulas.py:601-629) for arguments strictly between 0 and 1 *)
Definition g2_fi (th : R) (t : R) : R := Rpower (- ln t) th.
Definition g2_fi_inv (th : R) (s : R) : R := exp (- Rpower s (1 / th)).
Definition g2_ccdf (th : R) (X : list R) : R := g2_fi_inv th (fold_left (fun s x => s + g2_fi th x) X 0).
Definition g2_cpdf (th : R) (X : list R) : R :=
  let si := fold_left (fun s x => s + g2_fi th x) X 0 in
  let s1 := g2_fi_inv th si * (Rpower si (1 / th - 2) * (- 1 + th + Rpower si (1 / th))) / (th ^ 2) in
  fold_left (fun s x => s * (th * Rpower (g2_fi th x) (1 - 1 / th) / x)) X s1.
(** FrankCopula2d (copulas.py:689-726) *)
Definition f2_eta (th : R) : R := - (exp (- th) - 1).
Definition f2_ccdf (th : R) (X : list R) : R :=
  let pi := fold_left (fun p x => p * - (exp (- th * x) - 1)) X 1 in
  - (1 / th) * ln (1 + - pi / f2_eta th).
Definition f2_cpdf (th : R) (X : list R) : R :=
  let si := fold_left (fun s x => s + x) X 0 in
  let pi := fold_left (fun p x => p * - (exp (- th * x) - 1)) X 1 in
  th * f2_eta th * exp (- th * si) / (f2_eta th - pi) ^ length X.

(** ** A copula with marginals: a marginal is its distribution function and density *)
Definition marginal : Type := (R -> R) * (R -> R).
(** Copula.cdf (copulas.py:72-78), marginals given *)
Definition joint_cdf {A} (ccdf : list R -> A) (ms : list marginal) (X : list R) : A :=
  ccdf (map (fun p => fst (fst p) (snd p)) (combine ms X)).
(** Copula.pdf (copulas.py:58-71), marginals given, no NaN *)
Definition joint_pdf (cpdf : list R -> R) (ms : list marginal) (X : list R) : R :=
  let mi := fold_left (fun mi p => mi * snd (fst p) (snd p)) (combine ms X) 1 in
  cpdf (map (fun p => fst (fst p) (snd p)) (combine ms X)) * mi.
(** Copula.dualcdf (copulas.py:80-84) *)
Definition dual_cdf (ccdf : list R -> R) (ms : list marginal) (X : list R) : R :=
  fold_left (fun s p => s + fst (fst p) (snd p)) (combine ms X) 0 - ccdf X.
(** Copula.beta (copulas.py:249-252) *)
Definition blomqvist (ccdf : list R -> R) : R := 4 * ccdf [/ 2; / 2] - 1.
