(** Quotients of independent variables: the whole of convdiv (pacal/indeparith.py). *)
From Coq Require Import Reals List Bool Arith.
From Coquelicot Require Import Coquelicot.
From Verif Require Import Base Bisect Seg Piecewise Integral SegInt Indep Wide IndepAsm.
Import List ListNotations.
Open Scope R_scope.

(** bisect.insort_left on a sorted list of numbers *)
Definition insort_left (l : list Rbar) (x : Rbar) : list Rbar := list_insert (bisect_left blt l x) x l.
(** flatnonzero(l == 0.0)[0], if there is one *)
Fixpoint zero_ix (l : list Rbar) : option nat :=
  match l with
  | [] => None
  | x :: t => if beq x 0 then Some 0%nat else option_map S (zero_ix t)
  end.
Definition bhalf (x : Rbar) : Rbar := match x with Finite r => Finite (r / 2) | _ => x end.

(** the neighbours of zero, when zero is the last but one or the second break point (indeparith.py:886-895):
    next to an infinity -1.0 is inserted on both sides of zero (sic), else half of the neighbour *)
Definition cut_right (l : list Rbar) (i : nat) : list Rbar :=
  if (i + 2 =? length l)%nat then
    match nth_error l (S i) with
    | Some y => insort_left l (if isinf y then Finite (-1) else bhalf y)
    | None => l
    end
  else l.
Definition cut_left (l : list Rbar) (i : nat) : list Rbar :=
  if (i =? 1)%nat then
    match nth_error l 0 with
    | Some y => insort_left l (if isinf y then Finite (-1) else bhalf y)
    | None => l
    end
  else l.
(** the points at which a function with break points [b] is split (indeparith.py:884-896); the index of zero is
    the one before the insertions *)
Definition zero_pts (b : list Rbar) : list Rbar :=
  let l := match zero_ix b with None => insort_left b 0 | Some _ => b end in
  match zero_ix l with
  | Some i => np_unique (cut_left (cut_right l i) i)
  | None => np_unique l
  end.
(** _split_for_prod_and_div (indeparith.py:880-899) *)
Definition split_zero (eps : R) (l : list segment) : res (list segment) :=
  let b := getBreaks l in
  match b with
  | [] => Err EIndex
  | b0 :: _ => if (blt 0 b0 || blt (last b b0) 0)%bool then Ok l
               else rmap segs (splitByPoints eps l (zero_pts b))
  end.

(** p / q of numpy, None for NaN; [nz]: the zero among the break points of the denominator is -0.0 *)
Definition op_div (nz : bool) (p q : Rbar) : option Rbar :=
  match p, q with
  | Finite x, Finite y => if req y 0 then (if req x 0 then None else Some (if xorb (rlt x 0) nz then m_infty else p_infty))
                          else Some (Finite (x / y))
  | Finite _, _ => Some (Finite 0)
  | p_infty, Finite y => Some (if (rlt y 0 || (req y 0 && nz))%bool then m_infty else p_infty)
  | m_infty, Finite y => Some (if (rlt y 0 || (req y 0 && nz))%bool then p_infty else m_infty)
  | _, _ => None
  end.
(** divide.outer(bf, bg).flatten() (indeparith.py:1105) *)
Definition outer_div (nz : bool) (bf bg : list Rbar) : list (option Rbar) := flat_map (fun p => map (op_div nz p) bg) bf.
(** _distr_signs (indeparith.py:1060-1067) *)
Definition has_pos (f : list segment) : bool := existsb (fun s => blt 0 (sb s)) f.
Definition has_neg (f : list segment) : bool := existsb (fun s => blt (sa s) 0) f.
(** _distr_zero_signs (indeparith.py:1068-1077); g_zero follows from the other two unless there is an atom at zero
    only, and then nothing is added *)
Definition at_zero (s : segment) : bool := (ble (sa s) 0 && ble 0 (sb s))%bool.
Definition zero_pos (g : list segment) : bool := existsb (fun s => at_zero s && blt 0 (sb s))%bool g.
Definition zero_neg (g : list segment) : bool := existsb (fun s => at_zero s && blt (sa s) 0)%bool g.
(** the infinite break points (indeparith.py:1108-1114) *)
Definition inf_ends (f g : list segment) : list (option Rbar) :=
  (if ((has_pos f && zero_neg g) || (has_neg f && zero_pos g))%bool then [Some m_infty] else []) ++
  (if ((has_pos f && zero_pos g) || (has_neg f && zero_neg g))%bool then [Some p_infty] else []).
(** Python's min and max, for which no number is below or above NaN *)
Definition olt (x y : option Rbar) : bool := match x, y with Some a, Some b => blt a b | _, _ => false end.
Definition py_min (l : list (option Rbar)) : option Rbar :=
  match l with [] => None | x :: t => fold_left (fun m y => if olt y m then y else m) t x end.
Definition py_max (l : list (option Rbar)) : option Rbar :=
  match l with [] => None | x :: t => fold_left (fun m y => if olt m y then y else m) t x end.
(** x * y < 0 *)
Definition neg_prod (x y : option Rbar) : bool :=
  match x, y with
  | Some a, Some b => ((blt a 0 && blt 0 b) || (blt 0 a && blt b 0))%bool
  | _, _ => false
  end.
Definition drop_nan (l : list (option Rbar)) : list Rbar := flat_map (fun x => match x with Some r => [r] | None => [] end) l.
Definition div_list (nz : bool) (f g : list segment) : list (option Rbar) :=
  let b := outer_div nz (getBreaks f) (getBreaks g) ++ inf_ends f g in
  if neg_prod (py_min b) (py_max b) then b ++ [Some (Finite 0)] else b.
(** 1.0 after a zero followed by an infinity, -1.0 before a zero preceded by one, zero between opposite signs
    (indeparith.py:1119-1135) *)
Definition inf_at (l : list Rbar) (i : nat) : bool := match nth_error l i with Some y => isinf y | None => false end.
Definition widen (ub : list Rbar) : list Rbar :=
  np_unique (match zero_ix ub with
             | Some i => let l := if inf_at ub (S i) then insort_left ub (Finite 1) else ub in
                         if ((0 <? i)%nat && inf_at ub (pred i))%bool then insort_left l (Finite (-1)) else l
             | None => if neg_prod (hd_error ub) (last (map Some ub) None) then insort_left ub (Finite 0) else ub
             end).
Definition div_ub (ueps : R) (nz : bool) (f g : list segment) : list Rbar := widen (epsunique ueps (drop_nan (div_list nz f g))).

(** Convxrunner.fun_div on vectors (indeparith.py:514-530) *)
Definition fun_div (l : list (segment * segment)) (x : R) : res R :=
  if rlt (Rabs x) 1 then convdiv_at_point l x else convdiv2_at_point l x.
(** some finite break point; else ub[0] or ub[1] raises IndexError *)
Definition has_fin (ub : list Rbar) : bool := existsb is_fin ub.
(** x / 0.0 raises ZeroDivisionError, and the handler looks for operator.div, which does not exist
    (indeparith.py:1184-1187) *)
Definition divides_zero (f g : list segment) : bool :=
  (existsb isDirac f && existsb (fun s => isDirac s && beq (sa s) 0)%bool g)%bool.

(** convdiv (indeparith.py:1094-1190); testPole and fun(0.0) only choose the way of interpolation and are left
    out *)
Definition convdiv (eps ueps : R) (nz : bool) (f g : list segment) : res pwf :=
  rbind (split_zero eps f) (fun f' =>
  rbind (split_zero eps g) (fun g' =>
  let ub := div_ub ueps nz f' g' in
  if has_fin ub then
    rbind (assemble eps (fun z x => val (fun_div (findSegListDiv f' g' z) x)) ub) (fun fg =>
    if divides_zero f' g' then Err EName
    else rbind (convdiracs eps Rdiv f' g') (fun d => addAll eps fg (getDiracs (segs d))))
  else Err EIndex)).
