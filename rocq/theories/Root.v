(** Model: root finding (utils.py:390-466). *)
From Coq Require Import Reals List Bool.
From Verif Require Import Base.
Import List ListNotations.
Open Scope R_scope.

(** the loop of bisect (utils.py:457-466); [last] is xm of the previous round, None before the first *)
Fixpoint bis_loop (f : R -> R) (fa tol : R) (n : nat) (xa dm : R) (last : option R) : res R :=
  match n with
  | O => match last with Some x => Ok x | None => Err EName end
  | S n' =>
      let dm := dm / 2 in
      let xm := xa + dm in
      let fm := f xm in
      let xa' := if rle 0 (fm * fa) then xm else xa in
      if req fm 0 || rlt (Rabs dm) tol then Ok xm
      else bis_loop f fa tol n' xa' dm (Some xm)
  end.
(** bisect (utils.py:448-466); the warning printed at the end is not modelled *)
Definition bisect (xtol rtol : R) (maxiter : nat) (f : R -> R) (xa xb : R) : res R :=
  let tol := Rmin xtol (rtol * (Rabs xa + Rabs xb)) in
  let fa := f xa in
  let fb := f xb in
  if rlt 0 (fa * fb) then Err ERuntime
  else if req fa 0 then Ok xa
  else if req fb 0 then Ok xb
  else bis_loop f fa tol maxiter xa (xb - xa) None.

(** findinv (utils.py:400-408); [solve g a b] is brentq or bisect *)
Definition findinv (solve : (R -> R) -> R -> R -> res R) (fn : R -> R) (a b c : R) : res R :=
  solve (fun x => fn x - c) a b.

(** outcome of the two searches below: nan, an interval handed to findinv, or still searching (the floats
    of the code would end the search by overflow to an infinity) *)
Inductive search := SNan | SBracket (a b : R) | SRunning.

(** findinv_minf (utils.py:409-424) *)
Fixpoint minf_loop (fn : R -> R) (c : R) (fuel : nat) (a b : R) : search :=
  if rlt c (fn a) then
    match fuel with
    | O => SRunning
    | S f => let d := (b - a) * (12/10) in minf_loop fn c f (a - d) a
    end
  else SBracket a b.
Definition findinv_minf (fn : R -> R) (fuel : nat) (b c : R) : search :=
  let a := b - Rmax 1 (1/10 * Rabs b) in
  if negb (rle c (fn b)) then SNan else minf_loop fn c fuel a b.

(** findinv_pinf (utils.py:425-446) *)
Fixpoint pinf_loop (fn : R -> R) (c : R) (fuel : nat) (a b : R) : search :=
  if rlt (fn b) c then
    match fuel with
    | O => SRunning
    | S f => let d := (b - a) * (12/10) in pinf_loop fn c f b (b + d)
    end
  else SBracket a b.
Definition findinv_pinf (fn : R -> R) (increasing : bool) (fuel : nat) (a c : R) : search :=
  let s := if increasing then 1 else -1 in
  let b := a + Rmax 1 (1/10 * Rabs a) in
  if negb (rle (s * (fn a - c)) 0) then SNan else pinf_loop fn c fuel a b.
(** the final step of both: findinv on the interval *)
Definition search_inv (solve : (R -> R) -> R -> R -> res R) (fn : R -> R) (c : R) (r : search) : option (res R) :=
  match r with SBracket a b => Some (findinv solve fn a b c) | _ => None end.
