(** Functions of a piecewise function and the information measures: entropy, L2 distance and
    Kullback-Leibler distance (pacal/segments.py, pacal/distr.py). *)
From Coq Require Import Reals Lra List Bool.
From Coquelicot Require Import Coquelicot.
From Verif Require Import Base Bisect Seg Piecewise Integral SegInt.
Import List ListNotations.
Open Scope R_scope.

(** nan_to_num(numpy.log(y)), the call of _safe_fun_on_f_call (segments.py:103-104) with the function
    of _log (segments.py:1713-1715).  numpy.log(0) is -inf, which nan_to_num turns into the most
    negative float, here -big; the logarithm of a negative number is nan, which becomes 0. *)
Definition np_log (big y : R) : R := if rlt 0 y then ln y else if req y 0 then - big else 0.

(** the same for _log1 (segments.py:1718-1720) *)
Definition np_log1 (big y : R) : R := if rlt 0 y then - ln y else if req y 0 then big else 0.

(** numpy.log of the mass of an atom (segments.py:1741), without nan_to_num: a mass that is not
    positive gives -inf or nan, which is not a number of the model *)
Definition atom_log (m : R) : res R := if rlt 0 m then Ok (ln m) else Err EValue.
Definition atom_log1 (m : R) : res R := if rlt 0 m then Ok (- ln m) else Err EValue.

(** body of the loop of _function__ (segments.py:1726-1744): [fc] is nan_to_num o fun, used on
    pieces, [fd] is fun, used on the masses of atoms *)
Definition fun_seg (fc : R -> R) (fd : R -> res R) (s : segment) : res segment :=
  match s with
  | DiracSeg a m => rmap (DiracSeg a) (fd m)
  | _ => Ok (remake s (fun x => fc (sf s x)))
  end.

(** _function__ (segments.py:1722-1745): the pieces are added one after the other to an empty
    function *)
Fixpoint fun_loop (eps : R) (fc : R -> R) (fd : R -> res R) (p : pwf) (l : list segment) : res pwf :=
  match l with
  | [] => Ok p
  | s :: l' => rbind (fun_seg fc fd s) (fun s' => rbind (addSegment eps p s') (fun p' => fun_loop eps fc fd p' l'))
  end.
Definition function_op (eps : R) (fc : R -> R) (fd : R -> res R) (l : list segment) : res pwf :=
  fun_loop eps fc fd empty_pwf l.

(** _log and _log1 (segments.py:1713-1720) *)
Definition pw_log (eps big : R) (l : list segment) : res pwf := function_op eps (np_log big) atom_log l.
Definition pw_log1 (eps big : R) (l : list segment) : res pwf := function_op eps (np_log1 big) atom_log1 l.

(** PiecewiseFunction.integrate without arguments (segments.py:1133-1142) *)
Definition integrate_all (h : pwf) : R := pw_integrate (segs h) m_infty p_infty.

(** entropy (segments.py:1976-1978; distr.py:194-196) *)
Definition entropy (eps big : R) (l : list segment) : res R :=
  rbind (pw_log1 eps big l) (fun g =>
  rmap integrate_all (operation eps Rmult l (segs g))).

(** L2_distance (segments.py:1980-1982; distr.py:200-202).  The power 0.5 is a square root; of a
    negative number it would be a complex number, here 0. *)
Definition L2_distance (eps : R) (f g : list segment) : res R :=
  rbind (operation eps Rminus f g) (fun d1 =>
  rbind (operation eps Rminus f g) (fun d2 =>
  rmap (fun h => sqrt (integrate_all h)) (operation eps Rmult (segs d1) (segs d2)))).

(** KL_distance (segments.py:1984-1986; distr.py:197-199) *)
Definition KL_distance (eps big : R) (f g : list segment) : res R :=
  rbind (pw_log eps big f) (fun lf =>
  rbind (pw_log eps big g) (fun lg =>
  rbind (operation eps Rminus (segs lf) (segs lg)) (fun d =>
  rmap integrate_all (operation eps Rmult f (segs d))))).
