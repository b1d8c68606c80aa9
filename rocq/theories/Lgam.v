(** pacal/gamma.py: the logarithm of the gamma function used where the standard library has none (utils.py:524-528). *)
From Coq Require Import Reals List Bool Arith.
From Coquelicot Require Import Coquelicot.
From Verif Require Import Base.
Import List ListNotations.
Open Scope R_scope.

(** coef[i] *)
Definition coef_at (l : list R) (i : nat) : res R := match nth_error l i with Some c => Ok c | None => Err EIndex end.
(** the loop of polevl (gamma.py:9-11); [k] rounds from index [i] on *)
Fixpoint polevl_loop (x : R) (coef : list R) (k i : nat) (ans : R) : res R :=
  match k with
  | O => Ok ans
  | S k' => rbind (coef_at coef i) (fun c => polevl_loop x coef k' (S i) (ans * x + c))
  end.
(** polevl (gamma.py:5-12) *)
Definition polevl (x : R) (coef : list R) (N : nat) : res R :=
  rbind (coef_at coef 0) (fun c => polevl_loop x coef N 1 c).

(** constants (gamma.py:15-37) *)
Definition LOGPI : R := 1.14472988584940017414.
Definition LS2PI : R := 0.91893853320467274178.
Definition MAXLGM : R := 2.556348e305.
Definition cA : list R :=
  [8.11614167470508450300e-4; - 5.95061904284301438324e-4; 7.93650340457716943945e-4; - 2.77777777730099687205e-3; 8.33333333333331927722e-2].
Definition cB : list R :=
  [- 1.37825152569120859100e3; - 3.88016315134637840924e4; - 3.31612992738871184744e5; - 1.16237097492762307383e6;
   - 1.72173700820839662146e6; - 8.53555664245765465627e5].
Definition cC : list R :=
  [1; - 3.51815701436523470549e2; - 1.70642106651881159223e4; - 2.20528590553854454839e5; - 1.13933444367982507207e6;
   - 2.53252307177582951285e6; - 2.01889141433532773231e6].

(** division and logarithm of Python *)
Definition pydiv (x y : R) : res R := if req y 0 then Err EZeroDiv else Ok (x / y).
Definition pylog (x : R) : res R := if rle x 0 then Err EValue else Ok (ln x).

(** while u >= 3.0 (gamma.py:72-75); the loops get [fuel] rounds, which is shown to be enough *)
Fixpoint loop_down (fuel : nat) (x p u z : R) : res (R * R * R) :=
  if rle 3 u then
    match fuel with
    | O => Err EFuel
    | S n => let p' := p - 1 in let u' := x + p' in loop_down n x p' u' (z * u')
    end
  else Ok (p, u, z).
(** while u < 2.0 (gamma.py:76-81); None: the function returned inf *)
Fixpoint loop_up (fuel : nat) (x p u z : R) : res (option (R * R * R)) :=
  if rlt u 2 then
    if req u 0 then Ok None
    else match fuel with
         | O => Err EFuel
         | S n => rbind (pydiv z u) (fun z' => let p' := p + 1 in loop_up n x p' (x + p') z')
         end
  else Ok (Some (p, u, z)).
Definition rounds : nat := 64.

(** the branch x < 13 (gamma.py:68-92); sgngam is assigned and never used *)
Definition lgamma_mid (x : R) : res Rbar :=
  rbind (loop_down rounds x 0 x 1) (fun s1 => let '(p, u, z) := s1 in
  rbind (loop_up rounds x p u z) (fun s2 =>
    match s2 with
    | None => Ok p_infty
    | Some (p, u, z) =>
        let z := if rlt z 0 then - z else z in
        if req u 2 then rbind (pylog z) (fun l => Ok (Finite l))
        else let x := x + (p - 2) in
             rbind (polevl x cB 5) (fun b => rbind (polevl x cC 6) (fun c => rbind (pydiv (x * b) c) (fun p =>
             rbind (pylog z) (fun l => Ok (Finite (l + p))))))
    end)).
(** the branch x >= 13 (gamma.py:93-106) *)
Definition lgamma_big (x : R) : res Rbar :=
  if rlt MAXLGM x then Ok p_infty
  else rbind (pylog x) (fun l =>
       let q := (x - 0.5) * l - x + LS2PI in
       if rlt 1e8 x then Ok (Finite q)
       else let p := 1 / (x * x) in
            if rle 1000 x then
              Ok (Finite (q + ((7.9365079365079365079365e-4 * p - 2.7777777777777777777778e-3) * p + 0.0833333333333333333333) / x))
            else rbind (polevl p cA 4) (fun a => Ok (Finite (q + a / x)))).
(** x >= -34 *)
Definition lgamma_right (x : R) : res Rbar := if rlt x 13 then lgamma_mid x else lgamma_big x.
(** math.floor *)
Definition flr (q : R) : R := IZR (Int_part q).
(** lgamma (gamma.py:42-107) of a number that is not nan; for x < -34 the function calls itself with -x > 34, which
    is not below -34 *)
Definition lgamma (x : Rbar) : res Rbar :=
  match x with
  | Finite x =>
      if rlt x (- 34) then
        let q := - x in
        rbind (lgamma_right q) (fun w =>
        let p := flr q in
        if req p q then Ok p_infty
        else let z := q - p in
             let z := if rlt 0.5 z then p + 1 - q else z in
             let z := q * sin (PI * z) in
             if req z 0 then Ok p_infty
             else rbind (pylog z) (fun l => Ok (Rbar_minus (Finite (LOGPI - l)) w)))
      else lgamma_right x
  | _ => Ok p_infty
  end.
