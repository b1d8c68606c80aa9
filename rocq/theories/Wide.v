(** Model: integrate_wide_interval (integration.py:264-299), epsunique (utils.py:229-231) and _unique_breakpoints
    (indeparith.py:41-55). *)
From Coq Require Import Reals ZArith List Bool.
From Coquelicot Require Import Coquelicot.
From Verif Require Import Base Piecewise.
Import List ListNotations.
Open Scope R_scope.

Definition log10 (x : R) : R := ln x / ln 10.
Definition pow10 (x : R) : R := Rpower 10 x.
(** numpy ceil *)
Definition rceil (x : R) : Z := (- Int_part (- x))%Z.
(** numpy.logspace(s, e, n + 1), n >= 1 *)
Definition logspace (s e : R) (n : nat) : list R := map (fun i => pow10 (s + INR i * ((e - s) / INR n))) (seq 0 (n + 1)).
(** nodes[0] = a; nodes[-1] = b *)
Definition set_first (a : R) (l : list R) : list R := match l with [] => [] | _ :: t => a :: t end.
Definition set_last (b : R) (l : list R) : list R := match l with [] => [] | _ => removelast l ++ [b] end.
Definition number_of_intervals (w r : R) : nat := Z.to_nat (rceil (log10 r / log10 w)).
Definition nodes_pos (w a b : R) : list R :=
  set_last b (set_first a (logspace (log10 a) (log10 b) (number_of_intervals w (b / a)))).
Definition nodes_neg (w a b : R) : list R :=
  set_last b (set_first a (map Ropp (logspace (log10 (Rabs a)) (log10 (Rabs b)) (number_of_intervals w (a / b))))).

(** the intervals handed to integrate_fejer2; an infinite end is replaced by +-1e100 (the order of the two tests is
    as in the code) *)
Definition wide_end (sign : R) (x : Rbar) : R := match x with Finite r => r | _ => sign * 10 ^ 100 end.
Fixpoint consecutive (l : list R) : list (R * R) :=
  match l with x :: ((y :: _) as t) => (x, y) :: consecutive t | _ => [] end.
Definition wide_intervals (w : R) (a b : Rbar) : list (R * R) :=
  let b := wide_end 1 b in
  let a := wide_end (-1) a in
  if negb (req a 0) && negb (req b 0) then
    if rlt w (b / a) && (rlt 0 a && rlt a b) then consecutive (nodes_pos w a b)
    else if rlt (b / a) (1 / w) && (rlt a b && rlt b 0) then consecutive (nodes_neg w a b)
    else [(a, b)]
  else [(a, b)].
(** the value part of the result; [quad] is integrate_fejer2 for one interval *)
Definition integrate_wide (quad : R -> R -> R) (w : R) (a b : Rbar) : R :=
  fold_left (fun s uv => s + quad (fst uv) (snd uv)) (wide_intervals w a b) 0.

(** epsunique (utils.py:229-231); the input has no NaN. A non-finite element is always kept, the first one too,
    another one when its distance from the previous distinct element, relative to max(1,|x|), exceeds eps. *)
Definition is_fin (x : Rbar) : bool := match x with Finite _ => true | _ => false end.
Definition gap_ok (eps : R) (x y : Rbar) : bool :=
  match x, y with
  | Finite u, Finite v => rlt eps ((v - u) / Rmax 1 (Rabs v))
  | _, _ => true (* the difference is +inf *)
  end.
Fixpoint eps_keep (eps : R) (prev : Rbar) (l : list Rbar) : list Rbar :=
  match l with
  | [] => []
  | y :: t => if negb (is_fin y) || gap_ok eps prev y then y :: eps_keep eps y t else eps_keep eps y t
  end.
Definition epsunique (eps : R) (tab : list Rbar) : list Rbar :=
  match np_unique tab with [] => [] | x :: t => x :: eps_keep eps x t end.

(** _unique_breakpoints (indeparith.py:41-55) on the sorted list; an entry is a position with four flags *)
Definition brk := (R * (bool * bool * bool * bool))%type.
Definition or4 (f g : bool * bool * bool * bool) : bool * bool * bool * bool :=
  match f, g with (a, b, c, d), (a', b', c', d') => (a || a', b || b', c || c', d || d') end.
Fixpoint ub_loop (eps : R) (cur : brk) (l : list brk) : list brk :=
  match l with
  | [] => [cur]
  | y :: t => if rle (Rabs (fst y - fst cur)) eps then ub_loop eps (fst cur, or4 (snd cur) (snd y)) t
              else cur :: ub_loop eps y t
  end.
(** the list given is already sorted (breaks.sort(), line 44) *)
Definition unique_breakpoints (eps : R) (sorted : list brk) : list brk :=
  match sorted with [] => [] | x :: t => ub_loop eps x t end.
